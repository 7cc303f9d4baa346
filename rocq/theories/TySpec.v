(** * Which data of which types survives

    [has t x]: the data [x] is of the type [t].  [kept w t x]: every part of [x] can be told from what is
    written for it; [w] says whether it becomes a [hcl::Value] or the text of an expression.  [fits p t x]: the
    data can make up the part [p] of a document. *)
From Coq Require Import NArith ZArith Reals Bool String List.
From Flocq Require Import IEEE754.BinarySingleNaN.
From Verif Require Import Res Str NumberModel NumberProofs PrimModel PrimProofs Ast EvalSpec EqSpec FmtModel FmtReadSpec SerModel SerSpec SerText TyModel.
Import ListNotations.
Open Scope list_scope.

Section All2.
  Context {A B : Type} (P : A -> B -> Prop).
  Fixpoint all2 (l : list A) (m : list B) : Prop :=
    match l, m with
    | [], [] => True
    | x :: l, y :: m => P x y /\ all2 l m
    | _, _ => False
    end.
End All2.
(** [P] holds for the [i]th. *)
Definition at_index {A} (P : A -> Prop) (l : list A) (i : nat) : Prop := pick P False l i.

(** ** Types and their data *)
Fixpoint has (t : ty) (x : tv) : Prop :=
  match t, x with
  | TBool, XBool _ | TF64, XF64 _ | TChar, XChar _ | TStr, XStr _ | TUnit, XUnit | TUnitStruct, XUnit | TOption _, XNone => True
  | TInt w, XInt z => (int_min w <= z <= int_max w)%Z
  | TOption t, XSome x => has t x
  | TSeq t, XList l => lall (has t) l
  | TTuple ts, XList l => all2 has ts l
  | TMap k t, XMap l => lall (fun p => has k (fst p) /\ has t (snd p)) l /\ NoDup (map fst l)
  | TNew _ t, x | TBlock _ t, x => has t x
  | TStruct _ fs, XList l => all2 (fun f => match f with (_, t) => has t end) fs l
  | TEnum vs, XVar i l =>
      at_index (fun v => match v with (_, s) =>
        match s with
        | ShUnit => l = []
        | ShNew t => match l with [x] => has t x | _ => False end
        | ShTuple ts => all2 has ts l
        | ShStruct fs => all2 (fun f => match f with (_, t) => has t end) fs l
        end end) vs i
  | TValue, XValue v => wf_value v
  | _, _ => False
  end.

(** Fields and variants have different names, and no type has the name of an internal marker of the
    crate. *)
Fixpoint proper (t : ty) : Prop :=
  match t with
  | TOption t | TSeq t | TBlock _ t => proper t
  | TTuple ts => lall proper ts
  | TMap k t => proper k /\ proper t
  | TNew name t => name <> block_marker /\ name <> labeled_marker /\ proper t
  | TStruct name fs =>
      name <> expr_marker /\ name <> struct_marker /\ NoDup (map fst fs) /\ lall (fun f => match f with (_, t) => proper t end) fs
  | TEnum vs =>
      NoDup (map fst vs) /\
      lall (fun v => match v with (_, s) =>
        match s with
        | ShUnit => True
        | ShNew t => proper t
        | ShTuple ts => lall proper ts
        | ShStruct fs => NoDup (map fst fs) /\ lall (fun f => match f with (_, t) => proper t end) fs
        end end) vs
  | _ => True
  end.

(** ** Data that can be told from what is written for it *)

(** Written as null. *)
Fixpoint nullish (t : ty) (x : tv) : Prop :=
  match t, x with
  | TUnit, _ | TUnitStruct, _ | TOption _, XNone | TValue, XValue VNull => True
  | TOption t, XSome x => nullish t x
  | TNew _ t, x | TBlock _ t, x => nullish t x
  | _, _ => False
  end.

(** Floats which [Number::from_f64] keeps (C04), but for the sign of zero: finite ones; if integral, in
    the range of [i64]. *)
Definition float_kept (f : f64) : Prop :=
  is_finite f = true /\ f <> B754_zero true /\
  (FloatProofs.is_int (B2R f) -> IZR i64_min <= B2R f <= IZR i64_max)%R.

Inductive way := ByValue | ByText.
Section Kept.
  Context (u : unicode) (b : build) (pf : str -> f64) (sf : f64 -> str).

  Definition text_kept (w : way) (s : str) : Prop := match w with ByValue => True | ByText => escape_ok s = true end.
  Definition num_kept (w : way) (n : num) : Prop := match w with ByValue => True | ByText => num_readable b pf sf n end.
  (** The keys of maps: strings, characters; in values also variants without data, in text also integers
      which are not negative. *)
  Fixpoint key_kept (w : way) (k : ty) (x : tv) : Prop :=
    match k, x with
    | TStr, XStr s => text_kept w s
    | TChar, XChar c => text_kept w [c]
    | TInt _, XInt z => w = ByText /\ (0 <= z)%Z
    | TEnum vs, XVar i _ => w = ByValue /\ at_index (fun v => snd v = ShUnit) vs i
    | TBlock _ k, x => key_kept w k x
    | _, _ => False
    end.
  (** The names of variants with one value are written without quotes. *)
  Definition name_kept (w : way) (n : str) : Prop := match w with ByValue => True | ByText => variable u n end.

  Fixpoint kept (w : way) (t : ty) (x : tv) : Prop :=
    match t, x with
    | TInt _, XInt z => num_kept w (num_of_Z z)
    | TF64, XF64 f => float_kept f /\ forall n, num_from_f64 b f = Done (Some n) -> num_kept w n
    | TChar, XChar c => text_kept w [c]
    | TStr, XStr s => text_kept w s
    | TOption t, XSome x => kept w t x /\ ~ nullish t x
    | TSeq t, XList l => lall (kept w t) l
    | TTuple ts, XList l => all2 (kept w) ts l
    | TMap k t, XMap l => lall (fun p => key_kept w k (fst p) /\ kept w t (snd p)) l
    | TNew _ t, x => w = ByText /\ kept w t x
    | TBlock _ t, x => kept w t x
    | TStruct _ fs, XList l => all2 (fun f x => match f with (n, t) => text_kept w n /\ kept w t x end) fs l
    | TEnum vs, XVar i l =>
        at_index (fun v => match v with (n, s) =>
          match s with
          | ShUnit => text_kept w n
          | ShNew t => match l with [x] => name_kept w n /\ kept w t x | _ => False end
          | ShTuple ts => text_kept w n /\ all2 (kept w) ts l
          | ShStruct fs => text_kept w n /\ all2 (fun f x => match f with (n, t) => text_kept w n /\ kept w t x end) fs l
          end end) vs i
    | TValue, XValue v => numbers num_wf v /\ match w with ByValue => True | ByText => written b pf sf v end
    | _, _ => True
    end.

  (** ** Data that can be part of a document *)

  (** A whole document; the value of a field; one or several blocks; blocks with labels. *)
  Inductive place := PBody | PField | PBlock | PLabel.
  (** Keys that name attributes and blocks; keys that are labels. *)
  Definition ident_key (k : ty) (x : tv) : Prop :=
    match k, x with
    | TStr, XStr s => is_ident u s = true
    | TChar, XChar c => is_ident u [c] = true
    | _, _ => False
    end.
  Definition label_key (k : ty) (x : tv) : Prop :=
    match k, x with
    | TStr, XStr s => escape_ok s = true
    | TChar, XChar c => escape_ok [c] = true
    | _, _ => False
    end.
  Definition several {A} (l : list A) : Prop := (2 <= length l)%nat.
  (** Types whose data is a single block. *)
  Fixpoint one (t : ty) : Prop :=
    match t with
    | TSeq _ | TTuple _ | TBlock true _ => False
    | TBlock false t | TNew _ t | TOption t => one t
    | _ => True
    end.

  Fixpoint fits (p : place) (t : ty) (x : tv) : Prop :=
    let fields := all2 (fun f x => match f with (n, t) => is_ident u n = true /\ fits PField t x end) in
    let entries k t := lall (fun e => ident_key k (fst e) /\ fits PField t (snd e)) in
    let labels := all2 (fun f x => match f with (n, t) => escape_ok n = true /\ fits PBlock t x end) in
    match p with
    | PBody =>
        match t, x with
        | TStruct _ fs, XList l => fields fs l
        | TMap k t, XMap l => entries k t l
        | TNew _ t, x | TBlock _ t, x => fits PBody t x
        | TEnum vs, XVar i l =>
            at_index (fun v => match v with (n, s) =>
              is_ident u n = true /\
              match s with
              | ShUnit => False
              | ShNew t => match l with [x] => fits PField t x | _ => False end
              | ShTuple ts => all2 (kept ByText) ts l
              | ShStruct fs => fields fs l
              end end) vs i
        | _, _ => False
        end
    | PField =>
        match t, x with
        | TBlock labeled t, x => fits (if labeled then PLabel else PBlock) t x
        | TOption t, XSome x => fits PField t x /\ ~ nullish t x
        | _, _ => kept ByText t x
        end
    | PBlock =>
        match t, x with
        | TStruct _ fs, XList l => fields fs l
        | TMap k t, XMap l => entries k t l
        | TNew _ t, x => fits PBlock t x
        | TBlock labeled t, x => fits (if labeled then PLabel else PBlock) t x
        | TOption t, XSome x => fits PBlock t x
        | TSeq t, XList l => several l /\ one t /\ lall (fits PBlock t) l
        | TTuple ts, XList l => several l /\ all2 (fun t x => one t /\ fits PBlock t x) ts l
        | TEnum vs, XVar i l =>
            at_index (fun v => match v with (n, s) =>
              is_ident u n = true /\
              match s with
              | ShUnit => False
              | ShNew t => match l with [x] => fits PField t x | _ => False end
              | ShTuple ts => several l /\ all2 (fun t x => one t /\ fits PBlock t x) ts l
              | ShStruct fs => fields fs l
              end end) vs i
        | _, _ => False
        end
    | PLabel =>
        match t, x with
        | TStruct _ fs, XList l => l <> [] /\ labels fs l
        | TMap k t, XMap l => l <> [] /\ lall (fun e => label_key k (fst e) /\ fits PBlock t (snd e)) l
        | TNew _ t, x | TBlock _ t, x => fits PLabel t x
        | TOption t, XSome x => fits PLabel t x
        | TEnum vs, XVar i l =>
            at_index (fun v => match v with (n, s) =>
              escape_ok n = true /\
              match s with
              | ShUnit => False
              | ShNew t => match l with [x] => fits PBlock t x | _ => False end
              | ShTuple ts => several l /\ all2 (fun t x => one t /\ fits PBlock t x) ts l
              | ShStruct fs => l <> [] /\ labels fs l
              end end) vs i
        | _, _ => False
        end
    end.
End Kept.

(** * Documents which are built and edited through the API: specification (C58)

    Structures with all their parts (EAst.v) as structures of BodyModel.v: what the functions of
    structure/body.rs do not look at is the payload. *)
From Coq Require Import NArith Bool String List.
From Verif Require Import Res Str NumberModel PrimModel EAst EncModel EqSpec ParseBase BackSpec BackBodySpec BodyModel BodyProofs.
From Verif Require MapModel.
Import ListNotations.

(** [Attribute] without its key, attribute.rs:14-24: decor of the attribute and of the key, value; [Block]
    without its identifier, block.rs:14-30: decor, labels and body. *)
Inductive payload :=
| PAttr (m : meta) (km : meta) (v : xexpr)
| PBlock (m : meta) (im : meta) (ls : list xlabel) (b : xbody).
Definition plain_label (l : xlabel) : label := match l with XLId i => LIdent (i_name i) | XLStr _ s => LString s end.
Definition view (s : xstruct) : structure payload :=
  match s with
  | XAttr m k v => SAttr (Attr (i_name k) (PAttr m (i_meta k) v))
  | XBlock m i ls b => SBlock (Blk (i_name i) (map plain_label ls) (PBlock m (i_meta i) ls b))
  end.

Section Spec.
  Context (u : unicode) (b : build) (pf : str -> f64) (sf : f64 -> str).
  (** A structure which is read back from its text (C46). *)
  Definition fine (s : structure payload) : Prop := exists x, s = view x /\ struct_ok u b pf sf x.
  (** Everything that a call puts into a body is fine, and what it does to parts of it keeps them fine.
      Writing through [get_mut(index)], which can create a second attribute with the same key
      ([C08_store_refuted]), is left out. *)
  Definition puts_fine (o : op payload) : Prop :=
    match o with
    | OPush s | OTryPush s | OInsert _ s | OTryInsert _ s => fine s
    | OExtend l => Forall fine l
    | OSetValue k v => fine (SAttr (Attr k v))
    | OMutateAll fa fb =>
        (forall a, fine (SAttr a) -> fine (SAttr (Attr (attr_key a) (fa a)))) /\ forall k, fine (SBlock k) -> fine (SBlock (fb k))
    | OStore _ _ => False
    | OPop | ORemove _ | ORemoveAttribute _ | ORemoveBlocks _ | OClear => True
    end.
End Spec.

(** Objects: entries of MapModel.v as items.  A value with the sign before and the character after it
    ([ObjectValue], expr/object.rs:395-399). *)
Definition value : Type := (assign * xexpr * oterm)%type.
Definition item (e : xkey * value) : xitem := match e with (k, (a, v, t)) => XItem k a v t end.
Section Objects.
  Context (u : unicode) (b : build) (pf : str -> f64) (sf : f64 -> str).
  (** Keys which are read back and do not start with one of [-![(<]; values which are read back, with a
      line break or a comma behind. *)
  Definition fine_key (k : xkey) : Prop :=
    key_ok u b pf sf false k /\ key_wf k /\ soft (match k with XKId i => i_name i | XKExpr e => x_text sf false e end) = true.
  Definition fine_value (v : value) : Prop :=
    match v with
    | (_, v, t) =>
        sub (ok u b pf sf false) false v /\ gap false (pre NO (x_meta v)) = true /\
        match t with TNewline => last_gap false (suf NO (x_meta v)) = true | TComma => gap false (suf NO (x_meta v)) = true | TNone => False end
    end.
  Definition fine_entry (e : xkey * value) : Prop := fine_key (fst e) /\ fine_value (snd e).
  Definition puts_entries (o : MapModel.mop xkey value) : Prop :=
    match o with
    | MapModel.MInsert k v => fine_key k /\ fine_value v
    | MapModel.MExtend l => Forall fine_entry l
    | MapModel.MUpdate _ f => forall v, fine_value v -> fine_value (f v)
    | MapModel.MUpdateAll f => forall k v, fine_value v -> fine_value (f k v)
    | MapModel.MRemove _ | MapModel.MRemoveEntry _ | MapModel.MClear => True
    end.
End Objects.

(** * Insertion-ordered maps: [vecmap::VecMap], [indexmap::IndexMap] and [hcl_edit::expr::Object]

    [VecMap] (crate vecmap-rs 0.2) and [IndexMap] (crate indexmap 2.7) are external; what is
    modelled here is their documented behaviour, which crates/hcl-edit/src/expr/object.rs:108-140
    repeats: an insertion-ordered list of entries searched by key equality; [insert] on a present
    key keeps the key and its position and replaces the value; [remove] shifts the entries after
    the removed one.

    Keys are compared with [eqb], the key type's [PartialEq], which need not be structural
    equality (hcl-edit keys carry whitespace). *)
From Coq Require Import Bool List.
Import ListNotations.

Section Map.
  Context {K V : Type} (eqb : K -> K -> bool).

  Definition vmap := list (K * V).

  (** [VecMap::get_key_value] (object.rs:94-96), [get] (82-84), [contains_key] (76-78). *)
  Section Get.
  Context (k : K).
  Fixpoint get_key_value (m : vmap) : option (K * V) :=
    match m with
    | [] => None
    | (k', v) :: m => if eqb k k' then Some (k', v) else get_key_value m
    end.
  End Get.
  Definition get (k : K) (m : vmap) : option V := option_map snd (get_key_value k m).
  Definition contains_key (k : K) (m : vmap) : bool :=
    match get_key_value k m with Some _ => true | None => false end.

  (** [VecMap::insert] (object.rs:118-124). *)
  Fixpoint insert (k : K) (v : V) (m : vmap) : vmap * option V :=
    match m with
    | [] => ([(k, v)], None)
    | (k', v') :: m =>
        if eqb k k' then ((k', v) :: m, Some v')
        else let (m', o) := insert k v m in ((k', v') :: m', o)
    end.

  (** [VecMap::remove_entry] (object.rs:140-142) and [remove] (131-133). *)
  Fixpoint remove_entry (k : K) (m : vmap) : vmap * option (K * V) :=
    match m with
    | [] => ([], None)
    | (k', v') :: m =>
        if eqb k k' then (m, Some (k', v'))
        else let (m', o) := remove_entry k m in ((k', v') :: m', o)
    end.
  Definition remove (k : K) (m : vmap) : vmap * option V :=
    let (m', o) := remove_entry k m in (m', option_map snd o).

  (** [get_mut] / [get_key_value_mut] (object.rs:88-107): the caller changes the value; only the
      key's decor is mutable ([ObjectKeyMut], 332-363), which [eqb] ignores. *)
  Fixpoint update (k : K) (f : V -> V) (m : vmap) : vmap :=
    match m with
    | [] => []
    | (k', v') :: m => if eqb k k' then (k', f v') :: m else (k', v') :: update k f m
    end.

  (** [iter_mut] (object.rs:154-160). *)
  Definition update_all (f : K -> V -> V) (m : vmap) : vmap :=
    map (fun e => (fst e, f (fst e) (snd e))) m.

  (** [Extend] and [FromIterator] (object.rs:200-237; also [collect] into the hcl-rs maps). *)
  Definition extend (l : list (K * V)) (m : vmap) : vmap :=
    fold_left (fun m e => fst (insert (fst e) (snd e) m)) l m.
  Definition from_iter (l : list (K * V)) : vmap := extend l [].

  (** [PartialEq] of both map types: same number of entries, and every entry of the first has an
      equal value under its key in the second (order does not matter). *)
  Definition map_eqb (veqb : V -> V -> bool) (m1 m2 : vmap) : bool :=
    Nat.eqb (length m1) (length m2) &&
    forallb (fun e => match get (fst e) m2 with Some v => veqb (snd e) v | None => false end) m1.

  Inductive mop :=
  | MInsert (k : K) (v : V) | MRemove (k : K) | MRemoveEntry (k : K) | MClear
  | MExtend (l : list (K * V)) | MUpdate (k : K) (f : V -> V) | MUpdateAll (f : K -> V -> V).

  Inductive mout := MNone | MValue (o : option V) | MEntry (o : option (K * V)).

  Definition mstep (o : mop) (m : vmap) : vmap * mout :=
    match o with
    | MInsert k v => let (m', r) := insert k v m in (m', MValue r)
    | MRemove k => let (m', r) := remove k m in (m', MValue r)
    | MRemoveEntry k => let (m', r) := remove_entry k m in (m', MEntry r)
    | MClear => ([], MNone)
    | MExtend l => (extend l m, MNone)
    | MUpdate k f => (update k f m, MNone)
    | MUpdateAll f => (update_all f m, MNone)
    end.

  Fixpoint mrun (ops : list mop) (m : vmap) : vmap * list mout :=
    match ops with
    | [] => (m, [])
    | o :: ops => let (m1, r) := mstep o m in let (m2, rs) := mrun ops m1 in (m2, r :: rs)
    end.
End Map.
Arguments vmap : clear implicits.
Arguments mop : clear implicits.
Arguments mout : clear implicits.

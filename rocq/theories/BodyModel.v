(** * The editing API of [hcl_edit::structure::Body] and block labels

    Models crates/hcl-edit/src/structure/{body,block,attribute,mod}.rs.

    Simplification, for the whole file: the value of an attribute and the body
    of a block are an opaque payload of type [V], and the whitespace decor and
    source spans attached to structures are not represented here.  None of the
    functions below looks at them. *)
From Coq Require Import NArith Bool String List.
From Verif Require Import Res Str.
Import ListNotations.
Open Scope nat_scope.

(** [BlockLabel], block.rs:248-253. *)
Inductive label := LIdent (s : str) | LString (s : str).

(** [BlockLabel::as_str], block.rs:267-272. *)
Definition label_str (l : label) : str :=
  match l with LIdent s => s | LString s => s end.

Section Body.
  Context {V : Type}.

  (** [Structure], structure/mod.rs:31-36; [Attribute], attribute.rs:14-24;
      [Block], block.rs:14-30. *)
  Record attribute := Attr { attr_key : str; attr_value : V }.
  Record block := Blk { block_ident : str; block_labels : list label; block_body : V }.
  Inductive structure := SAttr (a : attribute) | SBlock (b : block).

  (** [Body] without its layout preferences, decor and span, body.rs:85-91. *)
  Definition body := list structure.

  (** [Structure::as_attribute] / [as_block], structure/mod.rs:62-127. *)
  Definition as_attribute (s : structure) : option attribute :=
    match s with SAttr a => Some a | SBlock _ => None end.
  Definition as_block (s : structure) : option block :=
    match s with SAttr _ => None | SBlock b => Some b end.

  (** [Attribute::has_key], attribute.rs:49-51. *)
  Definition has_key (a : attribute) (k : str) : bool := seqb (attr_key a) k.

  (** [Block::has_ident], block.rs:79-81. *)
  Definition has_ident (b : block) (i : str) : bool := seqb (block_ident b) i.

  (** [Block::is_labeled], block.rs:63-65. *)
  Definition is_labeled (b : block) : bool :=
    match block_labels b with [] => false | _ => true end.

  (** The [zip(..).all(..)] of block.rs:152-155: stops at the shorter list. *)
  Fixpoint zip_all_eq (ls : list label) (ks : list str) : bool :=
    match ls, ks with
    | l :: ls, k :: ks => seqb (label_str l) k && zip_all_eq ls ks
    | _, _ => true
    end.

  (** [Block::has_labels], block.rs:145-157. *)
  Definition has_labels (b : block) (ks : list str) : bool :=
    if Nat.ltb (List.length (block_labels b)) (List.length ks) then false
    else zip_all_eq (block_labels b) ks.

  (** [Block::has_exact_labels], block.rs:207-212. *)
  Definition has_exact_labels (b : block) (ks : list str) : bool :=
    Nat.eqb (List.length (block_labels b)) (List.length ks) && has_labels b ks.

  (** [iter().filter_map(f)]: used by [attributes], [blocks], [get_attribute],
      [get_blocks]. *)
  Fixpoint filter_map {A B} (f : A -> option B) (l : list A) : list B :=
    match l with
    | [] => []
    | x :: l => match f x with Some y => y :: filter_map f l | None => filter_map f l end
    end.

  (** [Iterator::position]. *)
  Fixpoint position {A} (f : A -> bool) (l : list A) : option nat :=
    match l with
    | [] => None
    | x :: l => if f x then Some 0 else option_map S (position f l)
    end.

  (** [Vec::remove]: panics when the index is out of range. *)
  Fixpoint vec_remove {A} (i : nat) (l : list A) : res (A * list A) :=
    match l, i with
    | [], _ => Panic
    | x :: l, 0 => Done (x, l)
    | x :: l, S i => rmap (fun p => (fst p, x :: snd p)) (vec_remove i l)
    end.

  (** [Vec::insert]: panics when the index is greater than the length. *)
  Fixpoint vec_insert {A} (i : nat) (y : A) (l : list A) : res (list A) :=
    match i, l with
    | 0, l => Done (y :: l)
    | S _, [] => Panic
    | S i, x :: l => rmap (cons x) (vec_insert i y l)
    end.

  (** [Vec::pop]. *)
  Fixpoint vec_pop {A} (l : list A) : option A * list A :=
    match l with
    | [] => (None, [])
    | [x] => (Some x, [])
    | x :: l => let (o, l') := vec_pop l in (o, x :: l')
    end.

  (** [Body::get_attribute], body.rs:199-204. *)
  Definition get_attribute (k : str) (b : body) : option attribute :=
    find (fun a => has_key a k) (filter_map as_attribute b).

  (** [Body::has_attribute], body.rs:160-162. *)
  Definition has_attribute (k : str) (b : body) : bool :=
    match get_attribute k b with Some _ => true | None => false end.

  (** [Body::get_blocks], body.rs:269-276. *)
  Definition get_blocks (i : str) (b : body) : list block :=
    filter (fun blk => has_ident blk i) (filter_map as_block b).

  (** [Body::has_blocks], body.rs:177-179. *)
  Definition has_blocks (i : str) (b : body) : bool :=
    match get_blocks i b with [] => false | _ => true end.

  (** [Body::attributes], body.rs:578-580 and [Body::blocks], 608-610. *)
  Definition attributes (b : body) : list attribute := filter_map as_attribute b.
  Definition blocks (b : body) : list block := filter_map as_block b.

  (** [Body::try_push], body.rs:424-432: the rejected attribute is returned. *)
  Definition try_push (s : structure) (b : body) : body * option attribute :=
    match s with
    | SAttr a => if has_attribute (attr_key a) b then (b, Some a) else (b ++ [s], None)
    | SBlock _ => (b ++ [s], None)
    end.

  (** [Body::push], body.rs:392-394. *)
  Definition push (s : structure) (b : body) : body := fst (try_push s b).

  (** [Body::try_insert], body.rs:369-381. *)
  Definition try_insert (i : nat) (s : structure) (b : body) : res (body * option attribute) :=
    match s with
    | SAttr a =>
        if has_attribute (attr_key a) b then Done (b, Some a)
        else rmap (fun b => (b, None)) (vec_insert i s b)
    | SBlock _ => rmap (fun b => (b, None)) (vec_insert i s b)
    end.

  (** [Body::insert], body.rs:336-338. *)
  Definition insert (i : nat) (s : structure) (b : body) : res body :=
    rmap fst (try_insert i s b).

  (** [Body::remove_attribute], body.rs:475-484. *)
  Definition remove_attribute (k : str) (b : body) : res (body * option attribute) :=
    match position (fun s => match as_attribute s with
                             | Some a => has_key a k | None => false end) b with
    | None => Done (b, None)
    | Some i => rmap (fun p => (snd p, as_attribute (fst p))) (vec_remove i b)
    end.

  (** [Body::remove_block], body.rs:539-548. *)
  Definition remove_block (i : str) (b : body) : res (body * option block) :=
    match position (fun s => match as_block s with
                             | Some a => has_ident a i | None => false end) b with
    | None => Done (b, None)
    | Some n => rmap (fun p => (snd p, as_block (fst p))) (vec_remove n b)
    end.

  (** [Body::remove_blocks], body.rs:529-537: the [while let] loop, with a fuel
      that bounds the number of iterations ([None] = still running). *)
  Fixpoint remove_blocks_loop (fuel : nat) (i : str) (b : body) : option (res (body * list block)) :=
    match fuel with
    | 0 => None
    | S fuel =>
        match remove_block i b with
        | Panic => Some Panic
        | Done (b', None) => Some (Done (b', []))
        | Done (b', Some blk) =>
            option_map (rmap (fun p => (fst p, blk :: snd p))) (remove_blocks_loop fuel i b')
        end
    end.

  (** The loop with one more iteration than the body has structures; that it
      never runs out is theorem [C09_remove_blocks]. *)
  Definition remove_blocks (i : str) (b : body) : option (res (body * list block)) :=
    remove_blocks_loop (S (List.length b)) i b.

  (** [Extend::extend], body.rs:720-732: pushes every item in order. *)
  Definition extend (l : list structure) (b : body) : body :=
    fold_left (fun b s => push s b) l b.

  (** [FromIterator::from_iter], body.rs:739-748; [From<Vec>] 711-713;
      [BodyBuilder::{structure,structures,attribute,..}] 805-873 are [push]
      and [extend] on an initially empty body. *)
  Definition from_iter (l : list structure) : body := extend l [].

  (** [Body::get_attribute_mut] + [AttributeMut::value_mut], body.rs:230-236,
      attribute.rs:95-97: replaces the value of the first attribute with that
      key; [AttributeMut] gives no mutable access to the key. *)
  Fixpoint set_attribute_value (k : str) (v : V) (b : body) : body :=
    match b with
    | [] => []
    | SAttr a :: b =>
        if has_key a k then SAttr (Attr (attr_key a) v) :: b
        else SAttr a :: set_attribute_value k v b
    | s :: b => s :: set_attribute_value k v b
    end.

  (** [Body::iter_mut] / [attributes_mut] / [blocks_mut], body.rs:560-562,
      585-592, 615-621: the caller can change every attribute value ([fa]) and
      every block in any way ([fb]), but no attribute key ([StructureMut],
      structure/mod.rs:133-171). *)
  Definition mutate_all (fa : attribute -> V) (fb : block -> block) (b : body) : body :=
    map (fun s => match s with
                  | SAttr a => SAttr (Attr (attr_key a) (fa a))
                  | SBlock b => SBlock (fb b)
                  end) b.

  (** [Body::get_mut], body.rs:143-145: hands out [&mut Structure], so the
      caller can store any structure at a valid index. *)
  Fixpoint store (i : nat) (s : structure) (b : body) : body :=
    match b, i with
    | [], _ => []
    | _ :: b, 0 => s :: b
    | x :: b, S i => x :: store i s b
    end.

  (** One call of the editing API.  [OStore] is [*body.get_mut(i).unwrap() = s]. *)
  Inductive op :=
  | OPush (s : structure) | OTryPush (s : structure)
  | OInsert (i : nat) (s : structure) | OTryInsert (i : nat) (s : structure)
  | OPop | ORemove (i : nat) | ORemoveAttribute (k : str) | ORemoveBlocks (i : str)
  | OClear | OExtend (l : list structure)
  | OSetValue (k : str) (v : V)
  | OMutateAll (fa : attribute -> V) (fb : block -> block)
  | OStore (i : nat) (s : structure).

  (** What the call returns to its caller. *)
  Inductive out :=
  | RNone | RRejected (o : option attribute) | RPopped (o : option structure)
  | RRemoved (s : structure) | RAttribute (o : option attribute) | RBlocks (l : list block).

  (** A loop that has not ended after its last allowed iteration is reported
      as [Panic]; theorem [C09_remove_blocks] shows that this does not occur. *)
  Definition step (o : op) (b : body) : res (body * out) :=
    match o with
    | OPush s => Done (push s b, RNone)
    | OTryPush s => let (b', r) := try_push s b in Done (b', RRejected r)
    | OInsert i s => rmap (fun b' => (b', RNone)) (insert i s b)
    | OTryInsert i s => rmap (fun p => (fst p, RRejected (snd p))) (try_insert i s b)
    | OPop => let (r, b') := vec_pop b in Done (b', RPopped r)
    | ORemove i => rmap (fun p => (snd p, RRemoved (fst p))) (vec_remove i b)
    | ORemoveAttribute k => rmap (fun p => (fst p, RAttribute (snd p))) (remove_attribute k b)
    | ORemoveBlocks i =>
        match remove_blocks i b with
        | Some r => rmap (fun p => (fst p, RBlocks (snd p))) r
        | None => Panic
        end
    | OClear => Done ([], RNone)
    | OExtend l => Done (extend l b, RNone)
    | OSetValue k v => Done (set_attribute_value k v b, RNone)
    | OMutateAll fa fb => Done (mutate_all fa fb b, RNone)
    | OStore i s => Done (store i s b, RNone)
    end.

  (** A history of calls, from a given body. *)
  Fixpoint run (ops : list op) (b : body) : res (body * list out) :=
    match ops with
    | [] => Done (b, [])
    | o :: ops =>
        rbind (step o b) (fun p => let (b', r) := p in
        rmap (fun q => (fst q, r :: snd q)) (run ops b'))
    end.

End Body.
Arguments attribute : clear implicits.
Arguments block : clear implicits.
Arguments structure : clear implicits.
Arguments body : clear implicits.
Arguments op : clear implicits.
Arguments out : clear implicits.

(** * What iterators and builders of bodies promise *)
From Coq Require Import List Bool.
From Verif Require Import Str Ast IterModel.
Import ListNotations.

Definition is_side (d d' : side) : bool := match d, d' with Front, Front | Back, Back => true | _, _ => false end.
(** The elements that calls from one side have returned. *)
Definition got {A} (d : side) (r : list (side * option A)) : list A :=
  flat_map (fun p => if is_side d (fst p) then match snd p with Some a => [a] | None => [] end else []) r.
(** A history of calls to a double-ended iterator over [l]: each element is returned once.  Calls from
    the front return them in order, calls from the back in reverse order, and what was not returned is
    in between.  Nothing is returned only if nothing is left, and then forever ([fused]). *)
Definition delivers {A} (l : list A) (r : list (side * option A)) (rest : list A) : Prop :=
  l = got Front r ++ rest ++ rev (got Back r) /\
  forall r1 d r2, r = r1 ++ (d, None) :: r2 -> rest = [] /\ got Front r2 = [] /\ got Back r2 = [].

(** The same with writes: [l'] is [l] with each returned element replaced by what was written to it. *)
Definition seen {A} (r : list (side * option (A * A))) : list (side * option A) :=
  map (fun p => (fst p, option_map fst (snd p))) r.
Definition rewrites {A} (l : list A) (r : list (side * option (A * A))) (rest l' : list A) : Prop :=
  delivers l (seen r) rest /\ l' = map snd (got Front r) ++ rest ++ rev (map snd (got Back r)).

(** The attributes and the blocks of a body, in order. *)
Fixpoint attributes (l : rbody) : list attribute :=
  match l with [] => [] | SAttribute k e :: l => (k, e) :: attributes l | _ :: l => attributes l end.
Fixpoint blocks (l : rbody) : list block :=
  match l with [] => [] | SBlk i ls b :: l => (i, ls, b) :: blocks l | _ :: l => blocks l end.
(** Which structures are attributes. *)
Definition kinds (l : rbody) : list bool := map (fun s => match s with SAttribute _ _ => true | _ => false end) l.

(** What a call adds to a body and to the labels. *)
Definition added (c : bcall) : list struct_ :=
  match c with
  | AddAttribute (k, e) => [SAttribute k e]
  | AddAttributes l => map (fun a => SAttribute (fst a) (snd a)) l
  | AddBlock (i, ls, b) => [SBlk i ls b]
  | AddBlocks l => map (fun x => SBlk (fst (fst x)) (snd (fst x)) (snd x)) l
  | AddStructure s => [s]
  | AddStructures l => l
  | AddLabel _ | AddLabels _ => []
  end.
Definition labels (c : bcall) : list blabel := match c with AddLabel l => [l] | AddLabels l => l | _ => [] end.

(** Property theorems about the JSON representation of bodies (C34). *)
From Coq Require Import NArith Bool String List Lia.
From Verif Require Import Str NumberModel PrimModel Ast JsonModel JsonProofs.
Import ListNotations.
Open Scope nat_scope.

(** An attribute is found under its key, unchanged. *)
Theorem C34_attributes_kept (b : rbody) (k : str) (e : expr) :
  representable b -> In (SAttribute k e) b -> descend (expr_of_body b) [k] = Some e.
Proof. exact (json_attribute b k e). Qed.
Print Assumptions C34_attributes_kept.

(** Blocks are found under their identifier and labels: one block as the object of its body, several
    blocks with the same path as the array of the objects of their bodies, in document order. *)
Theorem C34_blocks_kept (b : rbody) (i : str) (ls : list blabel) (c : rbody) :
  representable b -> In (SBlk i ls c) b ->
  let p := i :: map blabel_str ls in
  descend (expr_of_body b) p =
    Some (match bodies_at p b with
          | [one] => expr_of_body one
          | many => EArr (map expr_of_body many)
          end).
Proof. exact (json_blocks b i ls c). Qed.
Print Assumptions C34_blocks_kept.

(** Every object on the way (the document itself included, [p = []]) has exactly one member per
    different next path component, in the order of first appearance. *)
Theorem C34_members_exact (b : rbody) (p : list str) (s : struct_) :
  representable b -> In s b -> (exists k r, spath s = p ++ k :: r) ->
  exists e, descend (expr_of_body b) p = Some e /\
    members e = Some (map skey (first_occurrences [] (next_components p b))).
Proof. exact (json_members b p s). Qed.
Print Assumptions C34_members_exact.

(** Without [representable] the claim "no block is lost" is false: a labelled block after an
    unlabelled one of the same type replaces it, and a block replaces an attribute of the same
    name. *)
Definition lost_block : rbody :=
  [SBlk (lit "foo") [] [SAttribute (lit "x") (EBool true)]; SBlk (lit "foo") [BLString (lit "bar")] []].
Definition lost_attr : rbody :=
  [SAttribute (lit "foo") (EBool true); SBlk (lit "foo") [] []].
Theorem C34_conflicting_paths_refuted :
  expr_of_body lost_block = EObj [(skey (lit "foo"), EObj [(skey (lit "bar"), EObj [])])] /\
  expr_of_body lost_attr = EObj [(skey (lit "foo"), EObj [])].
Proof. split; vm_compute; reflexivity. Qed.
Print Assumptions C34_conflicting_paths_refuted.

Definition json_example : rbody :=
  [SAttribute (lit "a") (EBool true);
   SBlk (lit "r") [BLString (lit "x"); BLIdent (lit "y")] [SAttribute (lit "n") ENull];
   SBlk (lit "s") [] [];
   SBlk (lit "r") [BLString (lit "x"); BLString (lit "z")] [];
   SBlk (lit "r") [BLString (lit "x"); BLString (lit "y")] [SBlk (lit "t") [] []]].
Example C34_example :
  representable json_example /\
  expr_of_body json_example =
    EObj [(skey (lit "a"), EBool true);
          (skey (lit "r"),
            EObj [(skey (lit "x"),
              EObj [(skey (lit "y"), EArr [EObj [(skey (lit "n"), ENull)];
                                           EObj [(skey (lit "t"), EObj [])]]);
                    (skey (lit "z"), EObj [])])]);
          (skey (lit "s"), EObj [])].
Proof.
  split; [|vm_compute; reflexivity].
  intros i j s t N Hi Hj H.
  destruct i as [|[|[|[|[|i]]]]]; destruct j as [|[|[|[|[|j]]]]]; try congruence;
    try (destruct i; discriminate Hi); try (destruct j; discriminate Hj);
    injection Hi as <-; injection Hj as <-; destruct H as [[r P]|[r P]]; cbn in P; try discriminate P;
    split; auto.
Qed.

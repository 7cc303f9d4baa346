(** * C52: iterators and builders of bodies *)
From Coq Require Import NArith Arith Bool Ascii String List Lia.
From Verif Require Import Str Ast IterModel IterSpec IterProofs.
Import ListNotations.
Open Scope nat_scope.

(** [body.iter()] and [body.into_iter()]: any history of calls from both ends returns each structure
    once, in order, and tells the number of those that are left. *)
Theorem C52_structures : forall (body : rbody) (h : list side),
  let (r, rest) := run step_all h body in
  delivers body r rest /\
  List.length body = List.length (got Front r) + len_all rest + List.length (got Back r) /\
  size_hint_all rest = (len_all rest, Some (len_all rest)).
Proof.
  intros body h. pose proof (all_delivers body h) as H. destruct (run step_all h body) as [r rest].
  split; [exact H|]. split; [|reflexivity]. destruct H as [E _]. rewrite E, !app_length, rev_length.
  unfold len_all. lia.
Qed.
Print Assumptions C52_structures.

(** [body.attributes()], [body.into_attributes()], [body.blocks()], [body.into_blocks()]: the same for
    the attributes and for the blocks. *)
Theorem C52_attributes : forall (body : rbody) (h : list side),
  let (r, rest) := run step_attributes h body in delivers (attributes body) r (attributes rest).
Proof.
  intros body h. generalize (found_delivers as_attribute body h). change (found as_attribute) with step_attributes.
  destruct (run step_attributes h body) as [r rest]. now rewrite !vis_attributes.
Qed.
Print Assumptions C52_attributes.
Theorem C52_blocks : forall (body : rbody) (h : list side),
  let (r, rest) := run step_blocks h body in delivers (blocks body) r (blocks rest).
Proof.
  intros body h. generalize (found_delivers as_block body h). change (found as_block) with step_blocks.
  destruct (run step_blocks h body) as [r rest]. now rewrite !vis_blocks.
Qed.
Print Assumptions C52_blocks.

(** A loop over the whole iterator: [collect] and [rev().collect]. *)
Theorem C52_collect : forall (body : rbody) (n : nat), List.length body <= n ->
  got Front (fst (run step_attributes (repeat Front n) body)) = attributes body /\
  got Back (fst (run step_attributes (repeat Back n) body)) = rev (attributes body) /\
  got Front (fst (run step_blocks (repeat Front n) body)) = blocks body /\
  got Back (fst (run step_blocks (repeat Back n) body)) = rev (blocks body).
Proof.
  assert (side_of : forall A (step : side -> rbody -> option A * rbody) d n (s : rbody),
      let (r, _) := run step (repeat d n) s in Forall (fun p => fst p = d) r /\ List.length r = n).
  { intros A step d n. induction n as [|n IH]; intros s; cbn; [now split|]. destruct (step d s) as [a s'].
    specialize (IH s'). destruct (run step (repeat d n) s') as [r s'']. destruct IH as [IH1 IH2]. split; [|cbn; lia].
    now constructor. }
  assert (got_other : forall A d d' (r : list (side * option A)), Forall (fun p => fst p = d) r -> d <> d' -> got d' r = []).
  { intros A d d' r F N. induction F as [|[e o] r E F IH]; [reflexivity|]. cbn in E. subst e. unfold got in *.
    cbn [flat_map fst snd]. rewrite IH. destruct d, d'; try reflexivity; congruence. }
  assert (got_all : forall A d (r : list (side * option A)), Forall (fun p => fst p = d) r ->
      (forall r1 d r2, r <> r1 ++ (d, None) :: r2) -> List.length (got d r) = List.length r).
  { intros A d r F. induction F as [|[e o] r E F IH]; intros N; [reflexivity|]. cbn in E. subst e.
    destruct o as [a|]; [|now destruct (N [] d r)].
    unfold got in *. cbn [flat_map fst snd]. replace (is_side d d) with true by now destruct d. cbn. f_equal.
    apply IH. intros r1 d1 r2 ->. now apply (N ((d, Some a) :: r1) d1 r2). }
  assert (has_none : forall A (r : list (side * option A)),
      (exists r1 d r2, r = r1 ++ (d, None) :: r2) \/ (forall r1 d r2, r <> r1 ++ (d, None) :: r2)).
  { intros A r. induction r as [|[d [a|]] r IH].
    - right. intros [|? ?]; discriminate.
    - destruct IH as [(r1 & d1 & r2 & ->)|N].
      + left. now exists ((d, Some a) :: r1), d1, r2.
      + right. intros [|p r1] d1 r2 E; [discriminate|]. injection E as _ E. now apply (N r1 d1 r2).
    - left. now exists [], d, r. }
  assert (main : forall A (step : side -> rbody -> option A * rbody) (all : rbody -> list A) (body : rbody) d n,
      (let (r, rest) := run step (repeat d n) body in delivers (all body) r (all rest)) ->
      List.length (all body) <= n ->
      got d (fst (run step (repeat d n) body)) = match d with Front => all body | Back => rev (all body) end).
  { intros A step all body d n D L. pose proof (side_of A step d n body) as Hs.
    destruct (run step (repeat d n) body) as [r rest]. destruct Hs as [Hf Hl]. destruct D as [E N]. cbn [fst].
    assert (R : all rest = []).
    { destruct (has_none A r) as [(r1 & d1 & r2 & Er)|Hn]; [exact (proj1 (N _ _ _ Er))|].
      pose proof (got_all A d r Hf Hn) as Hg.
      apply (f_equal (@List.length A)) in E. rewrite !app_length, rev_length in E.
      destruct (all rest) as [|x y] eqn:Er; [reflexivity|]. cbn in E. destruct d; lia. }
    rewrite R in E. destruct d.
    - rewrite (got_other A Front Back r Hf ltac:(discriminate)) in E. cbn in E. now rewrite app_nil_r in E.
    - rewrite (got_other A Back Front r Hf ltac:(discriminate)) in E. cbn in E. now rewrite E, rev_involutive. }
  intros body n L.
  assert (La : List.length (attributes body) <= List.length body).
  { clear. induction body as [|[k e|i ls b] l IH]; cbn; lia. }
  assert (Lb : List.length (blocks body) <= List.length body).
  { clear. induction body as [|[k e|i ls b] l IH]; cbn; lia. }
  split; [|split; [|split]].
  - apply (main _ step_attributes attributes body Front n); [apply C52_attributes|lia].
  - apply (main _ step_attributes attributes body Back n); [apply C52_attributes|lia].
  - apply (main _ step_blocks blocks body Front n); [apply C52_blocks|lia].
  - apply (main _ step_blocks blocks body Back n); [apply C52_blocks|lia].
Qed.
Print Assumptions C52_collect.

(** [body.iter_mut()]: each structure is returned at most once, and what is written to it replaces it at
    its place. *)
Theorem C52_iter_mut : forall (body : rbody) (h : list (side * (struct_ -> struct_))),
  let (r, body') := iter_mut h body in exists rest, rewrites body r rest body'.
Proof.
  intros body h. generalize (run_mut_spec (fun s => Some s) (fun s => s) (fun a => eq_refl) h body). unfold iter_mut.
  destruct (run_mut _ _ h body) as [r body']. rewrite !vis_some. intros [H _]. exact H.
Qed.
Print Assumptions C52_iter_mut.
(** [body.attributes_mut()]: writes change the returned attributes at their places and nothing else. *)
Theorem C52_attributes_mut : forall (body : rbody) (h : list (side * (attribute -> attribute))),
  let (r, body') := attributes_mut h body in
  (exists rest, rewrites (attributes body) r rest (attributes body')) /\
  blocks body' = blocks body /\ kinds body' = kinds body.
Proof.
  intros body h.
  assert (VP : forall a, as_attribute (of_attribute a) = Some a) by now intros [k e].
  generalize (run_mut_spec as_attribute of_attribute VP h body). unfold attributes_mut.
  destruct (run_mut _ _ h body) as [r body']. rewrite !vis_attributes. intros [H Hh].
  split; [exact H|]. now apply hidden_attributes_same.
Qed.
Print Assumptions C52_attributes_mut.
(** [body.blocks_mut()]. *)
Theorem C52_blocks_mut : forall (body : rbody) (h : list (side * (block -> block))),
  let (r, body') := blocks_mut h body in
  (exists rest, rewrites (blocks body) r rest (blocks body')) /\
  attributes body' = attributes body /\ kinds body' = kinds body.
Proof.
  intros body h.
  assert (VP : forall a, as_block (of_block a) = Some a) by now intros [[i ls] b].
  generalize (run_mut_spec as_block of_block VP h body). unfold blocks_mut.
  destruct (run_mut _ _ h body) as [r body']. rewrite !vis_blocks. intros [H Hh].
  split; [exact H|]. now apply hidden_blocks_same.
Qed.
Print Assumptions C52_blocks_mut.

(** Builders: the body and the labels are what the calls added, in their order. *)
Theorem C52_builders : forall (ident : str) (cs : list bcall),
  build_body cs = flat_map added cs /\
  build_block ident cs = (ident, flat_map labels cs, flat_map added cs).
Proof. intros. split; [apply build_body_eq|apply build_block_eq]. Qed.
Print Assumptions C52_builders.
(** [Extend] and [FromIterator]. *)
Theorem C52_extend : forall (body l1 l2 : list struct_),
  extend (extend body l1) l2 = extend body (l1 ++ l2)%list /\ from_iter l1 = l1 /\
  attributes (extend body l1) = (attributes body ++ attributes l1)%list /\
  blocks (extend body l1) = (blocks body ++ blocks l1)%list.
Proof.
  intros body l1 l2. split; [symmetry; apply app_assoc|]. split; [reflexivity|].
  rewrite <- !vis_attributes, <- !vis_blocks. split; apply vis_app.
Qed.
Print Assumptions C52_extend.

(** A body with attributes and blocks. *)
Definition sample : rbody :=
  [SAttribute (lit "a") ENull; SBlk (lit "x") [] []; SAttribute (lit "b") (EBool true);
   SBlk (lit "y") [BLString (lit "l")] [SAttribute (lit "z") ENull]; SAttribute (lit "c") (EBool false)].
Example sample_both_ends :
  run step_attributes [Front; Back; Back; Front; Back] sample =
  ([(Front, Some (lit "a", ENull)); (Back, Some (lit "c", EBool false)); (Back, Some (lit "b", EBool true));
    (Front, None); (Back, None)], []).
Proof. vm_compute. reflexivity. Qed.
Example sample_writes :
  snd (attributes_mut [(Back, fun a => (fst a, ENull)); (Front, fun a => (lit "n", snd a))] sample) =
  [SAttribute (lit "n") ENull; SBlk (lit "x") [] []; SAttribute (lit "b") (EBool true);
   SBlk (lit "y") [BLString (lit "l")] [SAttribute (lit "z") ENull]; SAttribute (lit "c") ENull].
Proof. vm_compute. reflexivity. Qed.
Example sample_built :
  build_block (lit "r") [AddLabel (BLString (lit "l")); AddAttribute (lit "a", ENull);
    AddBlocks [(lit "x", [], []); (lit "y", [], [])]; AddLabels [BLIdent (lit "m")]] =
  (lit "r", [BLString (lit "l"); BLIdent (lit "m")],
   [SAttribute (lit "a") ENull; SBlk (lit "x") [] []; SBlk (lit "y") [] []]).
Proof. vm_compute. reflexivity. Qed.

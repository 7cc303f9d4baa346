(** Property theorems about the editing API of bodies (C08, C09), objects (C10) and block labels
    (C11). *)
From Coq Require Import NArith Arith Bool String List Lia.
From Verif Require Import Res Str BodyModel BodyProofs.
From Verif Require MapModel MapProofs.
Import ListNotations.
Open Scope nat_scope.

(** ** C08 *)

(** Every body reached from the empty one by any history of calls that does not go through
    [get_mut(index)] has pairwise different attribute keys. *)
Theorem C08_history_unique_keys {V} (ops : list (op V)) (b : body V) rs :
  forallb (fun o => negb (is_store o)) ops = true ->
  run ops [] = Done (b, rs) -> unique_keys b.
Proof.
  intros F H. apply unique_keys_NoDup. eapply run_unique; eauto. constructor.
Qed.
Print Assumptions C08_history_unique_keys.

(** The same from any body that already has the property (for instance a parsed one). *)
Theorem C08_unique_keys_preserved {V} (ops : list (op V)) (b b' : body V) rs :
  forallb (fun o => negb (is_store o)) ops = true ->
  unique_keys b -> run ops b = Done (b', rs) -> unique_keys b'.
Proof.
  intros F U H. apply unique_keys_NoDup. eapply run_unique; eauto. apply unique_keys_NoDup. exact U.
Qed.
Print Assumptions C08_unique_keys_preserved.

(** Every way to build a body from a list of structures. *)
Theorem C08_constructed_unique_keys {V} (l : list (structure V)) : unique_keys (from_iter l).
Proof.
  apply unique_keys_NoDup. eapply extended_unique; [apply extend_spec|constructor].
Qed.
Print Assumptions C08_constructed_unique_keys.

(** A rejected attribute is handed back and the body is unchanged; this happens exactly when the
    key is present. *)
Theorem C08_try_push_rejects_iff_present {V} (s : structure V) (b b' : body V) r :
  try_push s b = (b', r) ->
  (forall a, r = Some a -> s = SAttr a /\ contains_key b (attr_key a) /\ b' = b) /\
  (r = None -> addable b s /\ b' = b ++ [s]).
Proof.
  intros H. pose proof (try_push_spec s b) as S. rewrite H in S. cbn [fst snd] in S.
  inversion S as [pre post Hb Hl Ha|a Hs Hc]; subst.
  - assert (post = []) as ->.
    { rewrite app_length in Hl. destruct post; auto. cbn in Hl. lia. }
    rewrite app_nil_r in *. split; [discriminate|auto].
  - split; [|discriminate]. intros a' Ha. injection Ha as <-. auto.
Qed.
Print Assumptions C08_try_push_rejects_iff_present.

(** Storing through [get_mut(index)] can create a duplicate key: the full statement of C08 with
    this call included is false. *)
Theorem C08_store_refuted :
  exists (ops : list (op nat)) b rs, run ops [] = Done (b, rs) /\ ~ unique_keys b.
Proof.
  exists [OPush (SAttr (Attr (lit "a") 1)); OPush (SAttr (Attr (lit "b") 2));
          OStore 1 (SAttr (Attr (lit "a") 3))].
  do 2 eexists. split; [vm_compute; reflexivity|].
  intros U. assert (0 = 1) by (apply (U 0 1 (lit "a")); [exists 1|exists 3]; reflexivity). discriminate.
Qed.
Print Assumptions C08_store_refuted.

Example C08_example :
  run [OPush (SAttr (Attr (lit "a") 1)); OTryPush (SAttr (Attr (lit "a") 2));
       OInsert 0 (SBlock (Blk (lit "b") [LString (lit "x")] 3));
       OExtend [SAttr (Attr (lit "c") 4); SAttr (Attr (lit "a") 5); SBlock (Blk (lit "b") [] 6)];
       ORemoveBlocks (lit "b"); OSetValue (lit "a") 7] []
  = Done ([SAttr (Attr (lit "a") 7); SAttr (Attr (lit "c") 4)],
          [RNone; RRejected (Some (Attr (lit "a") 2)); RNone; RNone;
           RBlocks [Blk (lit "b") [LString (lit "x")] 3; Blk (lit "b") [] 6]; RNone]).
Proof. vm_compute. reflexivity. Qed.

(** ** C09 *)

(** Every call changes the sequence of structures exactly as its specification [step_spec] says,
    and panics exactly when an index is out of range (documented). *)
Theorem C09_step_refines {V} (o : op V) (b : body V) :
  match step o b with
  | Done (b', r) => step_spec b o b' r /\ ~ panics b o
  | Panic => panics b o
  end.
Proof. exact (step_refines o b). Qed.
Print Assumptions C09_step_refines.

(** The specification leaves no freedom. *)
Theorem C09_spec_deterministic {V} (b : body V) o b1 r1 b2 r2 :
  step_spec b o b1 r1 -> step_spec b o b2 r2 -> b1 = b2 /\ r1 = r2.
Proof. exact (step_spec_det b o b1 r1 b2 r2). Qed.
Print Assumptions C09_spec_deterministic.

(** Histories: every run follows the specification call by call; it panics iff some call in it is
    out of contract. *)
Theorem C09_history_refines {V} (ops : list (op V)) (b b' : body V) rs :
  run ops b = Done (b', rs) -> run_spec b ops b' rs.
Proof. exact (run_refines ops b b' rs). Qed.
Print Assumptions C09_history_refines.

Theorem C09_history_panics_iff {V} (ops : list (op V)) (b : body V) :
  run ops b = Panic <->
  exists ops1 o ops2 b1 rs1,
    ops = ops1 ++ o :: ops2 /\ run ops1 b = Done (b1, rs1) /\ panics b1 o.
Proof. exact (run_panics ops b). Qed.
Print Assumptions C09_history_panics_iff.

(** [remove_blocks] ends, and splits the body into the blocks with that identifier and the rest,
    both in order. *)
Theorem C09_remove_blocks {V} (i : str) (b : body V) :
  exists b' r, remove_blocks i b = Some (Done (b', r)) /\ blocks_removed i b b' r.
Proof. apply remove_blocks_loop_spec. lia. Qed.
Print Assumptions C09_remove_blocks.

(** Lookups see the first attribute with the key and all blocks with the identifier. *)
Theorem C09_get_attribute {V} (b : body V) (k : str) :
  match get_attribute k b with
  | Some a => exists pre post, b = pre ++ SAttr a :: post /\ attr_key a = k /\ ~ contains_key pre k
  | None => ~ contains_key b k
  end.
Proof. exact (get_attribute_spec b k). Qed.
Print Assumptions C09_get_attribute.

Theorem C09_get_blocks {V} (b : body V) (i : str) :
  (exists rest, blocks_removed i b rest (get_blocks i b)) /\
  (has_blocks i b = true <-> exists s, In s b /\ is_block_named i s) /\
  (has_attribute i b = true <-> contains_key b i).
Proof.
  split; [exact (get_blocks_spec i b)|split; [exact (has_blocks_spec i b)|exact (has_attribute_spec b i)]].
Qed.
Print Assumptions C09_get_blocks.

Example C09_example_panic : panics [SAttr (Attr (lit "a") 1)] (ORemove 1) /\
  step (V := nat) (OInsert 2 (SBlock (Blk (lit "x") [] 0))) [SAttr (Attr (lit "a") 1)] = Panic /\
  step (OInsert 2 (SAttr (Attr (lit "a") 0))) [SAttr (Attr (lit "a") 1)]
    = Done ([SAttr (Attr (lit "a") 1)], RNone).
Proof. repeat split; vm_compute; auto. Qed.

(** ** C10 *)
Import MapModel MapProofs.

(** Any history of calls on an object behaves like the ordered-map specification: same results,
    same lookups, same iteration order. *)
Theorem C10_history_refines {K V} (eqb : K -> K -> bool) (ops : list (mop K V)) :
  equivalence eqb ->
  represents eqb (fst (mrun eqb ops [])) (fst (ospec_run eqb ops oempty)) /\
  snd (mrun eqb ops []) = snd (ospec_run eqb ops oempty).
Proof.
  intros EQ. destruct (mrun_refines eqb EQ ops [] oempty I (empty_represents eqb)) as (_ & H & E). auto.
Qed.
Print Assumptions C10_history_refines.

(** No history puts two equal keys into an object. *)
Theorem C10_distinct_keys {K V} (eqb : K -> K -> bool) (ops : list (mop K V)) :
  equivalence eqb -> distinct_keys eqb (fst (mrun eqb ops [])).
Proof.
  intros EQ. apply (wf_distinct eqb EQ). apply (mrun_refines eqb EQ ops [] oempty I (empty_represents eqb)).
Qed.
Print Assumptions C10_distinct_keys.

(** The observations determine the object, so the specification above is complete. *)
Theorem C10_spec_complete {K V} (eqb : K -> K -> bool) (m1 m2 : vmap K V) s :
  equivalence eqb -> distinct_keys eqb m1 -> distinct_keys eqb m2 ->
  represents eqb m1 s -> represents eqb m2 s -> m1 = m2.
Proof.
  intros EQ D1 D2. apply (represents_det eqb EQ); apply (wf_distinct eqb EQ); assumption.
Qed.
Print Assumptions C10_spec_complete.

(** Two objects are equal if every lookup gives equal results; the order of the entries does not
    matter. *)
Theorem C10_equality {K V} (eqb : K -> K -> bool) (veqb : V -> V -> bool) (m1 m2 : vmap K V) :
  equivalence eqb -> distinct_keys eqb m1 -> distinct_keys eqb m2 ->
  (map_eqb eqb veqb m1 m2 = true <->
   forall k, match get eqb k m1, get eqb k m2 with Some a, Some b => veqb a b = true | None, None => True | _, _ => False end).
Proof. intros EQ D1 D2. apply map_eqb_spec; [exact EQ| |]; apply (wf_distinct eqb EQ); assumption. Qed.
Print Assumptions C10_equality.

Lemma seqb_equivalence : equivalence seqb.
Proof.
  split.
  - exact seqb_refl.
  - intros x y. destruct (seqb y x) eqn:E.
    + apply seqb_eq in E. subst. apply seqb_refl.
    + apply seqb_neq in E. apply seqb_neq. congruence.
  - intros x y z H1 H2. apply seqb_eq in H1, H2. subst. apply seqb_refl.
Qed.

Example C10_example : equivalence seqb /\
  mrun seqb [MInsert (lit "a") 1; MInsert (lit "b") 2; MInsert (lit "a") 3; MInsert (lit "c") 4;
             MRemove (lit "b"); MInsert (lit "b") 5] []
  = ([(lit "a", 3); (lit "c", 4); (lit "b", 5)],
     [MValue None; MValue None; MValue (Some 1); MValue None; MValue (Some 2); MValue None]).
Proof. split; [exact seqb_equivalence|vm_compute; reflexivity]. Qed.

Example C10_equality_example :
  map_eqb seqb Nat.eqb [(lit "a", 1); (lit "b", 2)] [(lit "b", 2); (lit "a", 1)] = true /\
  map_eqb seqb Nat.eqb [(lit "a", 1)] [(lit "b", 2); (lit "a", 1)] = false.
Proof. split; reflexivity. Qed.

(** ** C11 *)
Theorem C11_has_labels_iff_prefix {V} (b : block V) (ks : list str) :
  has_labels b ks = true <-> exists rest, map label_str (block_labels b) = ks ++ rest.
Proof. exact (has_labels_spec b ks). Qed.
Print Assumptions C11_has_labels_iff_prefix.

Theorem C11_has_exact_labels_iff_equal {V} (b : block V) (ks : list str) :
  has_exact_labels b ks = true <-> map label_str (block_labels b) = ks.
Proof. exact (has_exact_labels_spec b ks). Qed.
Print Assumptions C11_has_exact_labels_iff_equal.

(** Identifier and string labels with the same text are interchangeable for matching. *)
Theorem C11_label_kind_irrelevant {V} (i : str) (ls ls' : list label) (v w : V) ks :
  map label_str ls = map label_str ls' ->
  has_labels (Blk i ls v) ks = has_labels (Blk i ls' w) ks /\
  has_exact_labels (Blk i ls v) ks = has_exact_labels (Blk i ls' w) ks.
Proof.
  intros H. split; apply eq_iff_eq_true.
  - rewrite !has_labels_spec. cbn [block_labels]. rewrite H. reflexivity.
  - rewrite !has_exact_labels_spec. cbn [block_labels]. rewrite H. reflexivity.
Qed.
Print Assumptions C11_label_kind_irrelevant.

Example C11_example :
  let b := Blk (lit "r") [LIdent (lit "x"); LString (lit "y")] 0 in
  has_labels b [lit "x"] = true /\ has_labels b [lit "y"] = false /\
  has_labels b [] = true /\ has_exact_labels b [lit "x"; lit "y"] = true /\
  has_exact_labels b [lit "x"] = false /\ has_labels b [lit "x"; lit "y"; lit "z"] = false.
Proof. vm_compute. repeat split. Qed.

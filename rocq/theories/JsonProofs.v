(** Specification and proofs about the JSON representation of bodies (C34). *)
From Coq Require Import NArith Bool String List Lia.
From Verif Require Import Str NumberModel PrimModel Ast JsonModel.
From Verif Require MapModel MapProofs.
Import ListNotations.
Open Scope nat_scope.

(** ** Specification *)

(** Where a structure goes in the JSON document: an attribute under its key, a block under its
    identifier and labels. *)
Definition spath (s : struct_) : list str :=
  match s with
  | SAttribute k _ => [k]
  | SBlk i ls _ => i :: map blabel_str ls
  end.
Definition is_attr (s : struct_) : bool := match s with SAttribute _ _ => true | _ => false end.

Definition prefix (p q : list str) : Prop := exists r, q = p ++ r.

(** Two structures can live in the same JSON document: neither path runs through the end of the
    other, and only blocks may share a path. *)
Definition compatible (s t : struct_) : Prop :=
  (prefix (spath s) (spath t) \/ prefix (spath t) (spath s)) ->
  spath s = spath t /\ is_attr s = false /\ is_attr t = false.

(** The document is representable: any two structures at different positions are compatible. *)
Definition representable (b : rbody) : Prop :=
  forall i j s t, i <> j -> nth_error b i = Some s -> nth_error b j = Some t -> compatible s t.

(** The member [k] of a JSON object; walking down a path of members. *)
Definition is_key (k : str) (x : okey expr * expr) : bool :=
  match fst x with KExpr (EStr s) => seqb s k | _ => false end.
Definition member (k : str) (e : expr) : option expr :=
  match e with EObj m => option_map snd (find (is_key k) m) | _ => None end.
Fixpoint descend (e : expr) (p : list str) : option expr :=
  match p with
  | [] => Some e
  | k :: p => match member k e with Some e' => descend e' p | None => None end
  end.

(** The members of a JSON object, in order. *)
Definition members (e : expr) : option (list (okey expr)) :=
  match e with EObj m => Some (map fst m) | _ => None end.

(** Keep the first occurrence of every string. *)
Fixpoint first_occurrences (seen l : list str) : list str :=
  match l with
  | [] => []
  | k :: l => if existsb (seqb k) seen then first_occurrences seen l
              else k :: first_occurrences (k :: seen) l
  end.

(** The path components that directly follow [p] in the structures below [p], in document order. *)
Fixpoint strip_prefix (p q : list str) : option (list str) :=
  match p, q with
  | [], q => Some q
  | x :: p, y :: q => if seqb x y then strip_prefix p q else None
  | _ :: _, [] => None
  end.
Fixpoint next_components (p : list str) (b : rbody) : list str :=
  match b with
  | [] => []
  | s :: b => match strip_prefix p (spath s) with
              | Some (k :: _) => k :: next_components p b
              | _ => next_components p b
              end
  end.

(** The bodies of the blocks at path [p], in document order. *)
Fixpoint bodies_at (p : list str) (b : rbody) : list rbody :=
  match b with
  | [] => []
  | SBlk i ls c :: b => if list_eqb seqb p (i :: map blabel_str ls) then c :: bodies_at p b else bodies_at p b
  | SAttribute _ _ :: b => bodies_at p b
  end.

(** ** Proofs *)
Inductive payload := PAttr (e : expr) | PBody (e : expr).
Definition item := (list str * payload)%type.

Definition icompat (x y : item) : Prop :=
  (prefix (fst x) (fst y) \/ prefix (fst y) (fst x)) ->
  fst x = fst y /\ (exists e, snd x = PBody e) /\ (exists e, snd y = PBody e).

(** The items below [p], with the rest of their path. *)
Fixpoint strip (p : list str) (xs : list item) : list item :=
  match xs with
  | [] => []
  | x :: xs => match strip_prefix p (fst x) with
               | Some r => (r, snd x) :: strip p xs
               | None => strip p xs
               end
  end.
Definition heads (xs : list item) : list str :=
  flat_map (fun x => match fst x with k :: _ => [k] | [] => [] end) xs.
Definition bodies (xs : list item) : list expr :=
  flat_map (fun x => match snd x with PBody e => [e] | PAttr _ => [] end) xs.

Inductive shape := ShMap (ks : list str) | ShBody (l : list expr) | ShExpr (e : expr).
Definition shape_of (n : jnode) : shape :=
  match n with JMap m => ShMap (map fst m) | JBody l => ShBody l | JExpr e => ShExpr e end.

Definition spec_at (xs : list item) : option shape :=
  match xs with
  | [] => None
  | ([], PAttr e) :: _ => Some (ShExpr e)
  | ([], PBody _) :: _ => Some (ShBody (bodies xs))
  | (_ :: _, _) :: _ => Some (ShMap (first_occurrences [] (heads xs)))
  end.

Fixpoint walk (n : jnode) (q : list str) : option jnode :=
  match q with
  | [] => Some n
  | k :: q => match n with
              | JMap m => match MapModel.get seqb k m with Some n' => walk n' q | None => None end
              | _ => None
              end
  end.

Definition inv (xs : list item) (n : jnode) : Prop :=
  (xs = [] -> n = JMap []) /\
  (forall q, strip q xs <> [] \/ q <> [] -> option_map shape_of (walk n q) = spec_at (strip q xs)).

Notation consistent := (ForallOrdPairs icompat).

Lemma strip_nil xs : strip [] xs = xs.
Proof. induction xs as [|[p pl] xs IH]; cbn; [|rewrite IH]; reflexivity. Qed.
Lemma strip_prefix_app p q r : strip_prefix (p ++ q) r =
  match strip_prefix p r with Some r' => strip_prefix q r' | None => None end.
Proof.
  revert r. induction p as [|x p IH]; intros [|y r]; cbn; auto.
  destruct (seqb x y); auto.
Qed.
Lemma strip_app p q xs : strip (p ++ q) xs = strip q (strip p xs).
Proof.
  induction xs as [|[r pl] xs IH]; cbn [strip]; auto. cbn [fst snd]. rewrite strip_prefix_app.
  destruct (strip_prefix p r) as [r'|]; cbn [strip]; auto. cbn [fst snd].
  destruct (strip_prefix q r'); rewrite IH; reflexivity.
Qed.
Lemma strip_cons k q xs : strip (k :: q) xs = strip q (strip [k] xs).
Proof. apply (strip_app [k] q xs). Qed.
Lemma strip_snoc p xs x : strip p (xs ++ [x]) = strip p xs ++ strip p [x].
Proof.
  induction xs as [|[r pl] xs IH]; auto. cbn [app strip]. destruct (strip_prefix p (fst (r, pl))); auto.
  cbn. rewrite IH. reflexivity.
Qed.
Lemma strip_prefix_some p q r : strip_prefix p q = Some r <-> q = p ++ r.
Proof.
  revert q. induction p as [|x p IH]; intros [|y q]; cbn; split; intros H; try congruence; try discriminate.
  - destruct (seqb x y) eqn:E; [|discriminate]. apply seqb_eq in E. subst. f_equal. apply IH. exact H.
  - injection H as -> ->. rewrite seqb_refl. apply IH. reflexivity.
Qed.
Lemma strip_In p r pl xs : In (r, pl) (strip p xs) <-> In (p ++ r, pl) xs.
Proof.
  induction xs as [|[q pl'] xs IH]; cbn; [tauto|]. destruct (strip_prefix p q) as [r'|] eqn:E.
  - apply strip_prefix_some in E. subst. cbn. rewrite IH. split; intros [H|H]; auto.
    + injection H as -> ->. auto.
    + injection H as H ->. apply app_inv_head in H. subst. auto.
  - rewrite IH. split; auto. intros [H|H]; auto. injection H as -> ->.
    assert (strip_prefix p (p ++ r) = Some r) by (apply strip_prefix_some; reflexivity). congruence.
Qed.

Lemma FOP_app {A} (R : A -> A -> Prop) l1 l2 : ForallOrdPairs R (l1 ++ l2) <->
  ForallOrdPairs R l1 /\ ForallOrdPairs R l2 /\ (forall x y, In x l1 -> In y l2 -> R x y).
Proof.
  induction l1 as [|a l1 IH]; cbn.
  - split; [intros H; split; [constructor|split; [exact H|intros ? ? []]]|intros (_ & H & _); exact H].
  - split.
    + intros H. inversion H as [|? ? H1 H2]; subst. apply IH in H2. destruct H2 as (H2 & H3 & H4).
      rewrite Forall_app in H1. destruct H1 as [H1 H1']. split; [constructor; auto|]. split; auto.
      intros x y [<-|Hx] Hy; auto. rewrite Forall_forall in H1'. auto.
    + intros (H1 & H2 & H3). inversion H1 as [|? ? H4 H5]; subst. constructor.
      * rewrite Forall_app. split; auto. apply Forall_forall. auto.
      * apply IH. split; [|split]; auto.
Qed.

Lemma consistent_strip p xs : consistent xs -> consistent (strip p xs).
Proof.
  induction 1 as [|[q pl] xs H1 H2 IH]; cbn; [constructor|].
  destruct (strip_prefix p q) as [r|] eqn:E; auto. constructor; auto.
  apply strip_prefix_some in E. subst. apply Forall_forall. intros [r' pl'] Hin.
  apply strip_In in Hin. rewrite Forall_forall in H1. specialize (H1 _ Hin).
  intros Hp. cbn [fst snd] in *. destruct H1 as (H3 & H4 & H5).
  - destruct Hp as [[t ->]|[t ->]]; [left|right]; exists t; now rewrite app_assoc.
  - cbn [fst snd] in *. apply app_inv_head in H3. auto.
Qed.

Lemma merge_into_get f other key m k :
  MapModel.get seqb k (merge_into f other key m) =
    if seqb k key then
      Some (match MapModel.get seqb key m with Some n => f n | None => other end)
    else MapModel.get seqb k m.
Proof.
  unfold MapModel.get. induction m as [|[k' n] m IH]; cbn.
  - destruct (seqb k key); reflexivity.
  - destruct (seqb key k') eqn:E; cbn.
    + apply seqb_eq in E. subst. destruct (seqb k k') eqn:E2; reflexivity.
    + destruct (seqb k k') eqn:E2; cbn.
      * apply seqb_eq in E2. subst. destruct (seqb k' key) eqn:E3; auto.
        apply seqb_eq in E3. subst. rewrite seqb_refl in E. discriminate.
      * exact IH.
Qed.

Lemma get_key_in {V} k (m : list (str * V)) :
  (exists v, MapModel.get seqb k m = Some v) <-> In k (map fst m).
Proof.
  unfold MapModel.get. induction m as [|[k' n] m IH]; cbn.
  - split; [intros [v H]; discriminate|tauto].
  - destruct (seqb k k') eqn:E; cbn.
    + apply seqb_eq in E. subst. split; eauto.
    + apply seqb_neq in E. rewrite IH. split; auto. intros [H|H]; auto. congruence.
Qed.

Lemma merge_into_keys f other key m :
  map fst (merge_into f other key m) =
    if existsb (seqb key) (map fst m) then map fst m else map fst m ++ [key].
Proof.
  induction m as [|[k' n] m IH]; cbn; auto. destruct (seqb key k'); cbn; auto.
  rewrite IH. destruct (existsb (seqb key) (map fst m)); reflexivity.
Qed.

Lemma first_occurrences_snoc seen l k :
  first_occurrences seen (l ++ [k]) =
    if existsb (seqb k) seen || existsb (seqb k) l then first_occurrences seen l
    else first_occurrences seen l ++ [k].
Proof.
  revert seen. induction l as [|x l IH]; intros seen; cbn.
  - rewrite orb_false_r. destruct (existsb (seqb k) seen); reflexivity.
  - destruct (existsb (seqb x) seen) eqn:E.
    + rewrite IH. destruct (seqb k x) eqn:E2; cbn; auto.
      apply seqb_eq in E2. subst. rewrite E. reflexivity.
    + rewrite IH. cbn. destruct (seqb k x); cbn; rewrite ?orb_true_r; auto.
      destruct (existsb (seqb k) seen || existsb (seqb k) l); reflexivity.
Qed.

Lemma existsb_seqb k l : existsb (seqb k) l = true <-> In k l.
Proof.
  rewrite existsb_exists. split.
  - intros [x [H1 H2]]. apply seqb_eq in H2. subst. exact H1.
  - intros H. exists k. split; auto. apply seqb_refl.
Qed.

Lemma first_occurrences_in seen l k : In k (first_occurrences seen l) <-> In k l /\ ~ In k seen.
Proof.
  revert seen. induction l as [|x l IH]; intros seen; cbn; [tauto|].
  destruct (existsb (seqb x) seen) eqn:E.
  - apply existsb_seqb in E. rewrite IH. split; [tauto|]. intros [[<-|H] H2]; auto. contradiction.
  - assert (~ In x seen) by (intros H; apply existsb_seqb in H; congruence).
    cbn. rewrite IH. cbn. split.
    + intros [<-|[H1 H2]]; auto.
    + intros [[H1|H1] H2]; auto. destruct (str_dec x k); auto. right. split; auto. intros [H3|H3]; auto.
Qed.
Lemma first_occurrences_nodup seen l : NoDup (first_occurrences seen l).
Proof.
  revert seen. induction l as [|x l IH]; intros seen; cbn; [constructor|].
  destruct (existsb (seqb x) seen); auto. constructor; auto.
  rewrite first_occurrences_in. cbn. tauto.
Qed.

(** A single block as a node. *)
Fixpoint chain (ls : list str) (e : expr) : jnode :=
  match ls with [] => JBody [e] | l :: ls => JMap [(l, chain ls e)] end.
Lemma block_node_chain i ls e : block_node i ls e = [(i, chain ls e)].
Proof. revert i. induction ls as [|l ls IH]; intros i; cbn; auto. rewrite IH. reflexivity. Qed.

Lemma chain_walk ls e q :
  option_map shape_of (walk (chain ls e) q) = spec_at (strip q [(ls, PBody e)]).
Proof.
  revert q. induction ls as [|l ls IH]; intros [|k q]; cbn; auto.
  unfold MapModel.get. cbn. destruct (seqb k l); cbn; auto.
  rewrite IH. cbn. reflexivity.
Qed.

Lemma inv_single ls e : inv [(ls, PBody e)] (chain ls e).
Proof. split; [discriminate|]. intros q _. apply chain_walk. Qed.

Lemma in_heads k xs : In k (heads xs) <-> exists r pl, In (k :: r, pl) xs.
Proof.
  unfold heads. rewrite in_flat_map. split.
  - intros [[p pl] [H1 H2]]. cbn in H2. destruct p as [|k' r]; [destruct H2|].
    destruct H2 as [<-|[]]. eauto.
  - intros (r & pl & H). exists (k :: r, pl). split; auto. left. reflexivity.
Qed.

Lemma strip_one_nonempty k xs : strip [k] xs <> [] <-> In k (heads xs).
Proof.
  rewrite in_heads. split.
  - intros H. destruct (strip [k] xs) as [|[r pl] ys] eqn:E; [congruence|].
    exists r, pl. apply (strip_In [k]). rewrite E. left. reflexivity.
  - intros (r & pl & H) E. apply (strip_In [k]) in H. rewrite E in H. exact H.
Qed.

(** What [inv] says about a node reached through one key. *)
Lemma inv_child xs m k n : inv xs (JMap m) -> MapModel.get seqb k m = Some n ->
  strip [k] xs <> [] /\ inv (strip [k] xs) n.
Proof.
  intros [_ H] G.
  assert (S : strip [k] xs <> []).
  { intros E. specialize (H [k]). cbn [walk] in H. rewrite G, E in H. cbn in H.
    assert (X : Some (shape_of n) = None) by (apply H; right; discriminate). discriminate. }
  split; auto. split; [intros E; contradiction|]. intros q _.
  rewrite <- strip_cons. rewrite <- H by (right; discriminate).
  cbn [walk]. rewrite G. reflexivity.
Qed.

Lemma inv_root_shape xs n : inv xs n -> xs <> [] -> Some (shape_of n) = spec_at xs.
Proof.
  intros [_ H] N. specialize (H []). rewrite strip_nil in H. apply H. left. exact N.
Qed.

(** All paths of the level are non-empty. *)
Definition deeper (xs : list item) : Prop := forall p pl, In (p, pl) xs -> p <> [].

Lemma spec_at_deeper xs : deeper xs -> xs <> [] -> spec_at xs = Some (ShMap (first_occurrences [] (heads xs))).
Proof.
  intros D N. destruct xs as [|[[|k p] pl] xs]; [congruence| |reflexivity].
  exfalso. apply (D [] pl); [left; reflexivity|reflexivity].
Qed.

Lemma heads_snoc xs x : heads (xs ++ [x]) = heads xs ++ match fst x with k :: _ => [k] | [] => [] end.
Proof. unfold heads. rewrite flat_map_app. cbn. now rewrite app_nil_r. Qed.

(** Adding at a map level: the only changed child is the one under [k]. *)
Lemma inv_map_step xs m k ls pl n' m' :
  deeper xs -> inv xs (JMap m) ->
  map fst m' = (if existsb (seqb k) (map fst m) then map fst m else map fst m ++ [k]) ->
  (forall k', MapModel.get seqb k' m' = if seqb k' k then Some n' else MapModel.get seqb k' m) ->
  inv (strip [k] (xs ++ [(k :: ls, pl)])) n' ->
  inv (xs ++ [(k :: ls, pl)]) (JMap m').
Proof.
  intros D I K G C. split.
  - intros E. destruct xs; discriminate.
  - intros q _. destruct q as [|k' q].
    + rewrite strip_nil. cbn [walk option_map shape_of]. rewrite spec_at_deeper.
      * rewrite heads_snoc. cbn [fst]. rewrite first_occurrences_snoc. cbn [existsb orb]. rewrite K.
        assert (S : map fst m = first_occurrences [] (heads xs)).
        { destruct xs as [|x xs].
          - destruct I as [I _]. specialize (I eq_refl). injection I as ->. reflexivity.
          - assert (N : x :: xs <> []) by discriminate. pose proof (inv_root_shape _ _ I N) as R.
            rewrite spec_at_deeper in R by auto. cbn in R. injection R as R. exact R. }
        assert (X : existsb (seqb k) (map fst m) = existsb (seqb k) (heads xs)).
        { apply eq_iff_eq_true. rewrite !existsb_seqb, S, first_occurrences_in. cbn. tauto. }
        rewrite X, S. destruct (existsb (seqb k) (heads xs)); reflexivity.
      * intros p pl' H. apply in_app_or in H. destruct H as [H|[H|[]]]; [eapply D; exact H|].
        injection H as <- <-. discriminate.
      * intros E. destruct xs; discriminate.
    + cbn [walk]. rewrite G. rewrite strip_cons. destruct (seqb k' k) eqn:E.
      * apply seqb_eq in E. subst k'. destruct C as [_ C]. apply C.
        destruct q as [|? ?]; [left|right; discriminate]. rewrite strip_nil.
        apply strip_one_nonempty. rewrite heads_snoc. apply in_or_app. right. left. reflexivity.
      * assert (S : strip [k'] (xs ++ [(k :: ls, pl)]) = strip [k'] xs).
        { rewrite strip_snoc. cbn. rewrite E. apply app_nil_r. }
        rewrite S. rewrite <- strip_cons. destruct I as [_ I]. rewrite <- I by (right; discriminate).
        reflexivity.
Qed.

Lemma consistent_snoc_deeper xs k ls pl :
  consistent (xs ++ [(k :: ls, pl)]) -> deeper xs.
Proof.
  intros C p pl' H ->. apply FOP_app in C. destruct C as (_ & _ & C).
  destruct (C _ (k :: ls, pl) H (or_introl eq_refl)) as (X & _).
  - left. exists (k :: ls). reflexivity.
  - discriminate.
Qed.

Lemma deep_merge_map1 l n lhs :
  deep_merge (JMap [(l, n)]) (JMap lhs) = JMap (merge_into (deep_merge n) n l lhs).
Proof. reflexivity. Qed.

Lemma inv_is_map xs n : inv xs n -> deeper xs -> exists m, n = JMap m.
Proof.
  intros I D. destruct xs as [|x xs].
  - destruct I as [I _]. exists []. auto.
  - assert (N : x :: xs <> []) by discriminate. pose proof (inv_root_shape _ _ I N) as R.
    rewrite spec_at_deeper in R by auto. destruct n; try discriminate. eauto.
Qed.

Lemma merge_chain ls e xs n :
  (ls = [] -> xs <> []) -> consistent (xs ++ [(ls, PBody e)]) -> inv xs n ->
  inv (xs ++ [(ls, PBody e)]) (deep_merge (chain ls e) n).
Proof.
  revert xs n. induction ls as [|l ls IH]; intros xs n N C I.
  - specialize (N eq_refl).
    assert (B : forall p pl, In (p, pl) xs -> p = [] /\ exists e', pl = PBody e').
    { intros p pl H. apply FOP_app in C. destruct C as (_ & _ & C).
      destruct (C _ ([], PBody e) H (or_introl eq_refl)) as (H1 & H2 & _); auto.
      right. exists p. reflexivity. }
    assert (S : exists l, n = JBody l /\ l = bodies xs).
    { pose proof (inv_root_shape _ _ I N) as R. destruct xs as [|[p pl] xs]; [congruence|].
      destruct (B p pl (or_introl eq_refl)) as (-> & e' & ->). cbn in R.
      destruct n; try discriminate. injection R as R. eexists. split; [reflexivity|exact R]. }
    destruct S as (l & -> & ->). cbn [chain deep_merge].
    split; [intros E; destruct xs; discriminate|]. intros q Hq.
    destruct q as [|k q].
    + rewrite strip_nil. cbn [walk option_map shape_of].
      destruct xs as [|[p pl] xs]; [congruence|].
      destruct (B p pl (or_introl eq_refl)) as (-> & e' & ->). cbn [app spec_at].
      do 2 f_equal. unfold bodies. cbn [flat_map snd app]. rewrite flat_map_app. reflexivity.
    + assert (S : strip (k :: q) (xs ++ [([], PBody e)]) = []).
      { destruct (strip (k :: q) (xs ++ [([], PBody e)])) as [|[r pl] ys] eqn:E; auto. exfalso.
        assert (H : In (r, pl) (strip (k :: q) (xs ++ [([], PBody e)]))) by (rewrite E; left; reflexivity).
        apply strip_In in H. apply in_app_or in H. destruct H as [H|[H|[]]]; [|discriminate].
        apply B in H. destruct H as [H _]. discriminate. }
      rewrite S. reflexivity.
  - pose proof (consistent_snoc_deeper _ _ _ _ C) as D.
    destruct (inv_is_map _ _ I D) as [m ->].
    cbn [chain]. rewrite deep_merge_map1.
    eapply inv_map_step with (n' := match MapModel.get seqb l m with
                                    | Some n => deep_merge (chain ls e) n
                                    | None => chain ls e end); eauto.
    + apply merge_into_keys.
    + intros k'. apply merge_into_get.
    + rewrite strip_snoc. cbn [strip fst strip_prefix snd]. rewrite seqb_refl.
      destruct (MapModel.get seqb l m) as [n|] eqn:G.
      * destruct (inv_child _ _ _ _ I G) as [S I']. apply IH; auto.
        apply (consistent_strip [l]) in C. rewrite strip_snoc in C. cbn [strip fst strip_prefix snd] in C.
        rewrite seqb_refl in C. exact C.
      * assert (S : strip [l] xs = []).
        { destruct I as [_ I]. specialize (I [l]). cbn [walk] in I. rewrite G in I. cbn in I.
          assert (I' : None = spec_at (strip [l] xs)) by (apply I; right; discriminate).
          destruct (strip [l] xs) as [|[[|? ?] [?|?]] ?]; [reflexivity| | | |]; discriminate I'. }
        rewrite S. apply inv_single.
Qed.

Lemma jinsert_get k n m k' :
  MapModel.get seqb k' (jinsert k n m) = if seqb k' k then Some n else MapModel.get seqb k' m.
Proof.
  unfold jinsert, MapModel.get. induction m as [|[k1 n1] m IH]; cbn.
  - destruct (seqb k' k); reflexivity.
  - destruct (seqb k k1) eqn:E; cbn.
    + apply seqb_eq in E. subst. destruct (seqb k' k1); reflexivity.
    + destruct (MapModel.insert seqb k n m) as [m' o]. cbn in *. destruct (seqb k' k1) eqn:E2; auto.
      apply seqb_eq in E2. subst. destruct (seqb k1 k) eqn:E3; auto. apply seqb_eq in E3. subst.
      rewrite seqb_refl in E. discriminate.
Qed.
Lemma jinsert_keys k n m :
  map fst (jinsert k n m) = if existsb (seqb k) (map fst m) then map fst m else map fst m ++ [k].
Proof.
  unfold jinsert. induction m as [|[k1 n1] m IH]; cbn; auto. destruct (seqb k k1); cbn; auto.
  destruct (MapModel.insert seqb k n m) as [m' o]. cbn in *. rewrite IH.
  destruct (existsb (seqb k) (map fst m)); reflexivity.
Qed.

Definition item_of (s : struct_) : item :=
  match s with
  | SAttribute k e => ([k], PAttr e)
  | SBlk i ls b => (i :: map blabel_str ls, PBody (expr_of_body b))
  end.

Lemma add_entry_inv s xs m :
  consistent (xs ++ [item_of s]) -> inv xs (JMap m) ->
  inv (xs ++ [item_of s]) (JMap (add_entry m (entry_of s))).
Proof.
  intros C I. destruct s as [k e|i ls b]; cbn [item_of entry_of add_entry] in *.
  - pose proof (consistent_snoc_deeper _ _ _ _ C) as D.
    eapply inv_map_step with (n' := JExpr e); eauto.
    + apply jinsert_keys.
    + intros k'. apply jinsert_get.
    + assert (S : strip [k] xs = []).
      { destruct (strip [k] xs) as [|[r pl] ys] eqn:E; auto. exfalso.
        assert (H : In (r, pl) (strip [k] xs)) by (rewrite E; left; reflexivity).
        apply strip_In in H. apply FOP_app in C. destruct C as (_ & _ & C).
        destruct (C _ ([k], PAttr e) H (or_introl eq_refl)) as (_ & _ & e' & X).
        - right. exists r. reflexivity.
        - discriminate. }
      rewrite strip_snoc, S. cbn. rewrite seqb_refl. split; [discriminate|].
      intros [|k' q]; cbn; auto.
  - rewrite block_node_chain. cbn [fold_left fst snd]. unfold deep_merge_into.
    fold (body_nodes b). fold (expr_of_body b).
    rewrite <- (deep_merge_map1 i (chain (map blabel_str ls) (expr_of_body b)) m).
    apply (merge_chain (i :: map blabel_str ls)); auto. discriminate.
Qed.

Lemma body_nodes_inv_from b xs m :
  consistent (xs ++ map item_of b) -> inv xs (JMap m) ->
  inv (xs ++ map item_of b) (JMap (fold_left add_entry (map entry_of b) m)).
Proof.
  revert xs m. induction b as [|s b IH]; intros xs m C I; cbn [map fold_left].
  - rewrite app_nil_r. exact I.
  - cbn [map] in C.
    change (xs ++ item_of s :: map item_of b) with (xs ++ [item_of s] ++ map item_of b) in *.
    rewrite app_assoc in *. apply IH; auto. apply add_entry_inv; auto.
    apply FOP_app in C. tauto.
Qed.

Lemma body_nodes_inv b : consistent (map item_of b) -> inv (map item_of b) (JMap (body_nodes b)).
Proof.
  intros C. apply (body_nodes_inv_from b [] []); auto. split; auto.
  intros [|k q] H; cbn in *; auto. destruct H; congruence.
Qed.

Lemma item_path s : fst (item_of s) = spath s.
Proof. destruct s; reflexivity. Qed.

Lemma representable_consistent b : representable b -> consistent (map item_of b).
Proof.
  induction b as [|s b IH]; intros R; cbn; constructor.
  - apply Forall_forall. intros y Hy. apply in_map_iff in Hy. destruct Hy as (t & <- & Ht).
    apply In_nth_error in Ht. destruct Ht as [n Hn].
    assert (C : compatible s t) by (apply (R 0 (S n)); auto).
    intros Hp. rewrite !item_path in *. destruct (C Hp) as (H1 & H2 & H3). split; auto.
    destruct s, t; try discriminate. cbn. split; eauto.
  - apply IH. intros i j s' t' N Hi Hj. apply (R (S i) (S j)); auto.
Qed.

(** ** From nodes to expressions *)
Definition skey (k : str) : okey expr := KExpr (EStr k).

Lemma inkeys_skey (k : str) (l : list (str * expr)) :
  MapProofs.inkeys (okey_eqb expr_eqb) (skey k) (map (fun e => (skey (fst e), snd e)) l) =
  existsb (seqb k) (map fst l).
Proof. induction l as [|[k' v] l IH]; cbn; auto. rewrite IH. reflexivity. Qed.

Lemma wf_skeys (l : list (str * expr)) : NoDup (map fst l) ->
  MapProofs.wf (okey_eqb expr_eqb) (map (fun e => (skey (fst e), snd e)) l).
Proof.
  induction l as [|[k v] l IH]; cbn; auto. intros N. inversion N as [|? ? H1 H2]; subst. split; auto.
  rewrite inkeys_skey. destruct (existsb (seqb k) (map fst l)) eqn:E; auto.
  apply existsb_seqb in E. contradiction.
Qed.

(** Collecting entries with distinct keys only needs the keys to be compared with each other. *)
Lemma insert_fresh {K V} (eqb : K -> K -> bool) k (v : V) m :
  MapProofs.inkeys eqb k m = false -> fst (MapModel.insert eqb k v m) = m ++ [(k, v)].
Proof.
  induction m as [|[k' v'] m IH]; cbn; auto. intros H. apply orb_false_iff in H. destruct H as [H1 H2].
  rewrite H1. specialize (IH H2). destruct (MapModel.insert eqb k v m). cbn in *. congruence.
Qed.
Lemma collect_skeys_from (l m : list (str * expr)) : NoDup (map fst (m ++ l)) ->
  MapModel.extend (okey_eqb expr_eqb) (map (fun e => (skey (fst e), snd e)) l)
    (map (fun e => (skey (fst e), snd e)) m) = map (fun e => (skey (fst e), snd e)) (m ++ l).
Proof.
  unfold MapModel.extend. revert m. induction l as [|[k v] l IH]; intros m N; cbn [map fold_left].
  - now rewrite app_nil_r.
  - cbn [fst snd]. rewrite insert_fresh.
    + assert (X : map (fun e : str * expr => (skey (fst e), snd e)) m ++ [(skey k, v)] =
                  map (fun e : str * expr => (skey (fst e), snd e)) (m ++ [(k, v)])).
      { rewrite map_app. reflexivity. }
      rewrite X, IH; rewrite <- app_assoc; auto.
    + rewrite inkeys_skey. destruct (existsb (seqb k) (map fst m)) eqn:E; auto.
      apply existsb_seqb in E. rewrite map_app in N. cbn in N. apply NoDup_remove_2 in N.
      exfalso. apply N. apply in_or_app. auto.
Qed.
Lemma expr_obj_nodup l : NoDup (map fst l) -> expr_obj l = EObj (map (fun e => (skey (fst e), snd e)) l).
Proof. intros N. unfold expr_obj, eobj_collect, MapModel.from_iter. f_equal. apply (collect_skeys_from l []). exact N. Qed.

Lemma member_obj k l : NoDup (map fst l) ->
  member k (expr_obj l) = MapModel.get seqb k l.
Proof.
  intros N. rewrite expr_obj_nodup by exact N. cbn [member]. clear N.
  unfold MapModel.get. induction l as [|[k' v] l IH]; cbn; auto.
  assert (X : seqb k' k = seqb k k').
  { apply eq_iff_eq_true. rewrite !seqb_eq. split; congruence. }
  rewrite X. destruct (seqb k k'); auto.
Qed.

Lemma get_map {A B} (f : A -> B) k m :
  MapModel.get seqb k (map (fun e => (fst e, f (snd e))) m) = option_map f (MapModel.get seqb k m).
Proof.
  unfold MapModel.get. induction m as [|[k' v] m IH]; cbn; auto. destruct (seqb k k'); auto.
Qed.

(** Walking the nodes and walking the JSON object agree along paths of the document. *)
Lemma descend_walk q n xs n' : inv xs n -> (q <> [] -> xs <> []) -> walk n q = Some n' ->
  consistent xs -> descend (expr_of_node n) q = Some (expr_of_node n').
Proof.
  revert n xs. induction q as [|k q IH]; intros n xs I N W C; cbn [walk descend] in *.
  - congruence.
  - destruct n as [m| |]; try discriminate.
    destruct (MapModel.get seqb k m) as [n1|] eqn:G; [|discriminate].
    cbn [expr_of_node]. rewrite member_obj.
    + rewrite get_map, G. cbn [option_map]. destruct (inv_child _ _ _ _ I G) as [S I'].
      eapply IH; eauto. apply consistent_strip. exact C.
    + rewrite map_map. cbn [fst].
      pose proof (inv_root_shape _ _ I (N ltac:(discriminate))) as R. cbn [shape_of] in R.
      assert (X : exists l, map fst m = first_occurrences [] l).
      { destruct xs as [|[[|s l] [?|?]] xs]; cbn [spec_at] in R; try discriminate; injection R as R; exists (s :: heads xs); exact R. }
      destruct X as [l X]. change (map (fun x : str * jnode => fst x) m) with (map fst m). rewrite X.
      apply first_occurrences_nodup.
Qed.

Lemma expr_of_body_node b : expr_of_body b = expr_of_node (JMap (body_nodes b)).
Proof. reflexivity. Qed.

Lemma strip_items_next p b : heads (strip p (map item_of b)) = next_components p b.
Proof.
  induction b as [|s b IH]; cbn; auto. rewrite item_path. destruct (strip_prefix p (spath s)) as [[|k r]|]; cbn; auto.
  f_equal. exact IH.
Qed.

Lemma list_eqb_seqb p q : list_eqb seqb p q = true <-> p = q.
Proof.
  revert q. induction p as [|x p IH]; intros [|y q]; cbn; split; intros H; try discriminate; auto.
  - apply andb_true_iff in H. destruct H as [H1 H2]. apply seqb_eq in H1. apply IH in H2. congruence.
  - injection H as -> ->. rewrite seqb_refl. apply IH. reflexivity.
Qed.

Lemma strip_items_bodies p b :
  (forall r pl, In (r, pl) (strip p (map item_of b)) -> r = []) ->
  bodies (strip p (map item_of b)) = map expr_of_body (bodies_at p b).
Proof.
  induction b as [|s b IH]; cbn [map strip bodies_at]; auto. intros H.
  assert (H' : forall r pl, In (r, pl) (strip p (map item_of b)) -> r = []).
  { intros r pl Hin. eapply H. destruct (strip_prefix p (fst (item_of s))); [right|]; exact Hin. }
  specialize (IH H'). rewrite item_path in *.
  destruct (strip_prefix p (spath s)) as [r|] eqn:E.
  - assert (r = []) as -> by (eapply H; left; reflexivity). apply strip_prefix_some in E.
    rewrite app_nil_r in E. destruct s as [k e|i ls c]; cbn [item_of snd bodies flat_map app].
    + exact IH.
    + cbn [spath] in E. rewrite E.
      assert (X : list_eqb seqb p p = true) by (apply list_eqb_seqb; reflexivity).
      rewrite X. cbn [map]. f_equal. exact IH.
  - destruct s as [k e|i ls c]; auto. destruct (list_eqb seqb p (i :: map blabel_str ls)) eqn:E2; auto.
    apply list_eqb_seqb in E2. subst p. cbn [spath] in E.
    assert (X : strip_prefix (i :: map blabel_str ls) (i :: map blabel_str ls) = Some []).
    { apply strip_prefix_some. now rewrite app_nil_r. }
    congruence.
Qed.

(** The shape found at any path of the document. *)
Lemma descend_shape b p : representable b -> strip p (map item_of b) <> [] ->
  exists n, descend (expr_of_body b) p = Some (expr_of_node n) /\
            Some (shape_of n) = spec_at (strip p (map item_of b)).
Proof.
  intros R N. pose proof (representable_consistent b R) as C. pose proof (body_nodes_inv b C) as I.
  assert (W : exists n, walk (JMap (body_nodes b)) p = Some n).
  { destruct (walk (JMap (body_nodes b)) p) eqn:E; eauto. pose proof (proj2 I p (or_introl N)) as X.
    rewrite E in X. cbn in X. destruct (strip p (map item_of b)) as [|[[|? ?] [?|?]] ?]; try discriminate. congruence. }
  destruct W as [n W]. exists n. split.
  - rewrite expr_of_body_node. eapply descend_walk; eauto. intros _ E. rewrite E in N. apply N. reflexivity.
  - rewrite <- (proj2 I p (or_introl N)). rewrite W. reflexivity.
Qed.

Lemma json_attribute b k e : representable b -> In (SAttribute k e) b ->
  descend (expr_of_body b) [k] = Some e.
Proof.
  intros R H.
  assert (Hin : In ([k], PAttr e) (map item_of b)) by (apply in_map_iff; exists (SAttribute k e); auto).
  assert (Hs : In ([], PAttr e) (strip [k] (map item_of b))) by (apply strip_In; exact Hin).
  destruct (descend_shape b [k] R) as (n & -> & S).
  { intros E. rewrite E in Hs. exact Hs. }
  assert (X : strip [k] (map item_of b) = [([], PAttr e)]).
  { pose proof (consistent_strip [k] _ (representable_consistent b R)) as C.
    destruct (in_split _ _ Hs) as (l1 & l2 & E). rewrite E in *. apply FOP_app in C.
    destruct C as (_ & C2 & C3). inversion C2 as [|? ? H1 H2]; subst.
    destruct l1 as [|x l1]; [destruct l2 as [|y l2]; auto|]; exfalso.
    - inversion H1 as [|? ? H3 H4]; subst. destruct H3 as (_ & [e' X] & _); [|discriminate].
      left. exists (fst y). reflexivity.
    - destruct (C3 x ([], PAttr e) (or_introl eq_refl) (or_introl eq_refl)) as (_ & _ & e' & X); [|discriminate].
      right. exists (fst x). reflexivity. }
  rewrite X in S. cbn in S. injection S as S. destruct n; try discriminate. cbn in *. congruence.
Qed.

Lemma json_blocks b i ls c : representable b -> In (SBlk i ls c) b ->
  let p := i :: map blabel_str ls in
  descend (expr_of_body b) p =
    Some (match bodies_at p b with
          | [one] => expr_of_body one
          | many => EArr (map expr_of_body many)
          end).
Proof.
  intros R H p.
  assert (Hin : In (p, PBody (expr_of_body c)) (map item_of b)) by (apply in_map_iff; exists (SBlk i ls c); auto).
  assert (Hs : In ([], PBody (expr_of_body c)) (strip p (map item_of b))).
  { apply strip_In. rewrite app_nil_r. exact Hin. }
  destruct (descend_shape b p R) as (n & -> & S).
  { intros E. rewrite E in Hs. exact Hs. }
  assert (X : forall r pl, In (r, pl) (strip p (map item_of b)) -> r = [] /\ exists e, pl = PBody e).
  { pose proof (consistent_strip p _ (representable_consistent b R)) as C.
    destruct (in_split _ _ Hs) as (l1 & l2 & E). rewrite E in *. apply FOP_app in C.
    destruct C as (_ & C2 & C3). inversion C2 as [|? ? H1 H2]; subst.
    intros r pl Hr. apply in_app_or in Hr. destruct Hr as [Hr|[Hr|Hr]].
    - destruct (C3 _ ([], PBody (expr_of_body c)) Hr (or_introl eq_refl)) as (Y1 & Y2 & _); auto.
      right. exists r. reflexivity.
    - injection Hr as <- <-. eauto.
    - rewrite Forall_forall in H1. destruct (H1 _ Hr) as (Y1 & _ & Y2); auto. left. exists r. reflexivity. }
  assert (S' : shape_of n = ShBody (map expr_of_body (bodies_at p b))).
  { rewrite <- strip_items_bodies by (intros r pl Hr; apply (X r pl Hr)).
    destruct (strip p (map item_of b)) as [|[r pl] ys]; [destruct Hs|].
    destruct (X r pl (or_introl eq_refl)) as (-> & e & ->). cbn [spec_at] in S. congruence. }
  destruct n as [|l|]; try discriminate. cbn in S'. injection S' as ->. cbn [expr_of_node].
  destruct (bodies_at p b) as [|b1 [|b2 bs]]; reflexivity.
Qed.

Lemma json_members b p s : representable b -> In s b ->
  (exists k r, spath s = p ++ k :: r) ->
  exists e, descend (expr_of_body b) p = Some e /\
    members e = Some (map skey (first_occurrences [] (next_components p b))).
Proof.
  intros R H (k & r & Hp).
  assert (Hin : In (p ++ k :: r, snd (item_of s)) (map item_of b)).
  { apply in_map_iff. exists s. split; auto. rewrite <- Hp, <- item_path. destruct (item_of s); reflexivity. }
  assert (Hs : In (k :: r, snd (item_of s)) (strip p (map item_of b))) by (apply strip_In; exact Hin).
  destruct (descend_shape b p R) as (n & -> & S).
  { intros E. rewrite E in Hs. exact Hs. }
  eexists. split; [reflexivity|].
  assert (D : deeper (strip p (map item_of b))).
  { intros q pl Hq ->. pose proof (consistent_strip p _ (representable_consistent b R)) as C.
    destruct (in_split _ _ Hs) as (l1 & l2 & E). rewrite E in *. apply FOP_app in C.
    destruct C as (_ & C2 & C3). inversion C2 as [|? ? H1 H2]; subst.
    apply in_app_or in Hq. destruct Hq as [Hq|[Hq|Hq]]; try discriminate.
    - destruct (C3 _ (k :: r, snd (item_of s)) Hq (or_introl eq_refl)) as (Y1 & _); try discriminate.
      left. exists (k :: r). reflexivity.
    - rewrite Forall_forall in H1. destruct (H1 _ Hq) as (Y1 & _); try discriminate.
      right. exists (k :: r). reflexivity. }
  rewrite spec_at_deeper in S; [|exact D|intros E; rewrite E in Hs; exact Hs].
  injection S as S. destruct n as [m| |]; try discriminate. cbn in S. injection S as S.
  rewrite strip_items_next in S. cbn [expr_of_node].
  rewrite expr_obj_nodup.
  - cbn [members]. f_equal. rewrite !map_map. cbn [fst]. rewrite <- S, map_map. reflexivity.
  - rewrite map_map. cbn [fst]. change (map (fun x : str * jnode => fst x) m) with (map fst m).
    rewrite S. apply first_occurrences_nodup.
Qed.

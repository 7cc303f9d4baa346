(** Specifications and proofs about the editing API of [Body] (C08, C09) and block labels (C11). *)
From Coq Require Import NArith Arith Bool String List Lia.
From Verif Require Import Res Str BodyModel.
Import ListNotations.
Open Scope nat_scope.

Section BodyProofs.
  Context {V : Type}.
  Notation structure := (structure V).
  Notation body := (body V).
  Notation attribute := (attribute V).
  Notation block := (block V).

  (** ** Specifications *)

  (** [k] is the key of the attribute at position [i]. *)
  Definition key_at (b : body) (i : nat) (k : str) : Prop :=
    exists v, nth_error b i = Some (SAttr (Attr k v)).

  (** No two attributes of the body have the same key. *)
  Definition unique_keys (b : body) : Prop :=
    forall i j k, key_at b i k -> key_at b j k -> i = j.

  (** The body has an attribute with key [k]. *)
  Definition contains_key (b : body) (k : str) : Prop := exists v, In (SAttr (Attr k v)) b.

  (** A structure may be added: a block, or an attribute whose key is new. *)
  Definition addable (b : body) (s : structure) : Prop :=
    match s with SBlock _ => True | SAttr a => ~ contains_key b (attr_key a) end.

  Definition is_block_named (i : str) (s : structure) : Prop :=
    match s with SBlock b => block_ident b = i | SAttr _ => False end.

  (** [added b s b' r]: what adding [s] somewhere into [b] is allowed to do; [pos] says where. *)
  Inductive added_at (pos : nat) (b : body) (s : structure) : body -> option attribute -> Prop :=
  | Added pre post : b = pre ++ post -> length pre = pos -> addable b s ->
      added_at pos b s (pre ++ s :: post) None
  | Rejected a : s = SAttr a -> contains_key b (attr_key a) ->
      added_at pos b s b (Some a).

  (** [extended b l b']: the items of [l] are appended in order, skipping exactly the
      attributes whose key is already there. *)
  Inductive extended : body -> list structure -> body -> Prop :=
  | Ext_nil b : extended b [] b
  | Ext_add b s l b' : addable b s -> extended (b ++ [s]) l b' -> extended b (s :: l) b'
  | Ext_skip b s l b' : ~ addable b s -> extended b l b' -> extended b (s :: l) b'.

  (** [blocks_removed i b b' r]: [r] is the list of the blocks named [i] and [b'] everything
      else, both in the original order. *)
  Inductive blocks_removed (i : str) : body -> body -> list block -> Prop :=
  | BR_nil : blocks_removed i [] [] []
  | BR_hit blk b b' r : block_ident blk = i -> blocks_removed i b b' r ->
      blocks_removed i (SBlock blk :: b) b' (blk :: r)
  | BR_other s b b' r : ~ is_block_named i s -> blocks_removed i b b' r ->
      blocks_removed i (s :: b) (s :: b') r.

  (** The effect each call must have on the sequence of structures, and its result. *)
  Inductive step_spec (b : body) : op V -> body -> out V -> Prop :=
  | SpPush s b' r : added_at (length b) b s b' r -> step_spec b (OPush s) b' RNone
  | SpTryPush s b' r : added_at (length b) b s b' r -> step_spec b (OTryPush s) b' (RRejected r)
  | SpInsert i s b' r : added_at i b s b' r -> step_spec b (OInsert i s) b' RNone
  | SpTryInsert i s b' r : added_at i b s b' r -> step_spec b (OTryInsert i s) b' (RRejected r)
  | SpPopNone : b = [] -> step_spec b OPop [] (RPopped None)
  | SpPop b' s : b = b' ++ [s] -> step_spec b OPop b' (RPopped (Some s))
  | SpRemove pre s post : b = pre ++ s :: post ->
      step_spec b (ORemove (length pre)) (pre ++ post) (RRemoved s)
  | SpRemoveAttr pre a post k : b = pre ++ SAttr a :: post -> attr_key a = k ->
      ~ contains_key pre k -> step_spec b (ORemoveAttribute k) (pre ++ post) (RAttribute (Some a))
  | SpRemoveAttrNone k : ~ contains_key b k -> step_spec b (ORemoveAttribute k) b (RAttribute None)
  | SpRemoveBlocks i b' r : blocks_removed i b b' r -> step_spec b (ORemoveBlocks i) b' (RBlocks r)
  | SpClear : step_spec b OClear [] RNone
  | SpExtend l b' : extended b l b' -> step_spec b (OExtend l) b' RNone
  | SpSetValue k v pre w post : b = pre ++ SAttr (Attr k w) :: post -> ~ contains_key pre k ->
      step_spec b (OSetValue k v) (pre ++ SAttr (Attr k v) :: post) RNone
  | SpSetValueNone k v : ~ contains_key b k -> step_spec b (OSetValue k v) b RNone
  | SpMutate fa fb b' :
      Forall2 (fun s s' => match s with
                           | SAttr a => s' = SAttr (Attr (attr_key a) (fa a))
                           | SBlock blk => s' = SBlock (fb blk) end) b b' ->
      step_spec b (OMutateAll fa fb) b' RNone
  | SpStore pre x post s : b = pre ++ x :: post ->
      step_spec b (OStore (length pre) s) (pre ++ s :: post) RNone
  | SpStoreNone i s : length b <= i -> step_spec b (OStore i s) b RNone.

  (** Which calls are out of contract: they panic, as documented. *)
  Definition panics (b : body) (o : op V) : Prop :=
    match o with
    | OInsert i s | OTryInsert i s => length b < i /\ addable b s
    | ORemove i => length b <= i
    | _ => False
    end.

  Definition is_store (o : op V) : bool := match o with OStore _ _ => true | _ => false end.

  (** ** Proofs *)

  Lemma contains_cons b s k :
    contains_key (s :: b) k <-> (exists a, s = SAttr a /\ attr_key a = k) \/ contains_key b k.
  Proof.
    split.
    - intros [v [->|H]]; [left; eexists; split; reflexivity|right; exists v; exact H].
    - intros [[[k' v] [-> <-]]|[v H]]; exists v; cbn; auto.
  Qed.

  Lemma contains_app b c k : contains_key (b ++ c) k <-> contains_key b k \/ contains_key c k.
  Proof.
    unfold contains_key. split.
    - intros [v H]. apply in_app_or in H. destruct H; eauto.
    - intros [[v H]|[v H]]; exists v; apply in_or_app; auto.
  Qed.

  Lemma has_attribute_spec b k : has_attribute k b = true <-> contains_key b k.
  Proof.
    unfold has_attribute, get_attribute. induction b as [|s b IH]; cbn [filter_map find].
    - split; [discriminate|intros [v []]].
    - rewrite contains_cons, <- IH. destruct s as [[k' v]|blk]; cbn [as_attribute find].
      + unfold has_key at 1. cbn [attr_key]. destruct (seqb k' k) eqn:E.
        * apply seqb_eq in E. subst. split; auto. intros _. left. eexists. split; reflexivity.
        * apply seqb_neq in E. split; auto. intros [[a [Ha Hk]]|H]; auto.
          injection Ha as <-. cbn in Hk. congruence.
      + split; auto. intros [[a [Ha Hk]]|H]; auto. discriminate.
  Qed.

  Lemma has_attribute_false b k : has_attribute k b = false <-> ~ contains_key b k.
  Proof.
    rewrite <- has_attribute_spec. destruct (has_attribute k b); split; congruence.
  Qed.

  Lemma addable_dec b s : addable b s \/ exists a, s = SAttr a /\ contains_key b (attr_key a).
  Proof.
    destruct s as [a|blk]; [|left; exact I].
    destruct (has_attribute (attr_key a) b) eqn:E.
    - right. exists a. split; auto. apply has_attribute_spec. exact E.
    - left. apply has_attribute_false. exact E.
  Qed.

  (** Lists *)
  Lemma vec_insert_spec {A} i (y : A) l :
    match vec_insert i y l with
    | Done r => exists pre post, l = pre ++ post /\ length pre = i /\ r = pre ++ y :: post
    | Panic => length l < i
    end.
  Proof.
    revert l. induction i as [|i IH]; intros l; cbn [vec_insert].
    - exists [], l. destruct l; repeat split.
    - destruct l as [|x l]; cbn [length]; [lia|]. specialize (IH l).
      destruct (vec_insert i y l) as [r|]; cbn [rmap]; [|lia].
      destruct IH as (pre & post & -> & <- & ->). exists (x :: pre), post. auto.
  Qed.

  Lemma vec_remove_spec {A} i (l : list A) :
    match vec_remove i l with
    | Done (x, r) => exists pre post, l = pre ++ x :: post /\ length pre = i /\ r = pre ++ post
    | Panic => length l <= i
    end.
  Proof.
    revert i. induction l as [|x l IH]; intros [|i]; cbn [vec_remove length]; try lia.
    - exists [], l. auto.
    - specialize (IH i). destruct (vec_remove i l) as [[y r]|]; cbn [rmap fst snd]; [|lia].
      destruct IH as (pre & post & -> & <- & ->). exists (x :: pre), post. auto.
  Qed.

  Lemma vec_pop_spec {A} (l : list A) :
    match vec_pop l with
    | (None, r) => l = [] /\ r = []
    | (Some x, r) => l = r ++ [x]
    end.
  Proof.
    induction l as [|x [|y l] IH]; [cbn; auto|reflexivity|].
    assert (E : vec_pop (x :: y :: l) = let (o, l') := vec_pop (y :: l) in (o, x :: l')) by reflexivity.
    rewrite E. clear E. destruct (vec_pop (y :: l)) as [[z|] r].
    - rewrite IH. reflexivity.
    - destruct IH as [IH _]. discriminate.
  Qed.

  Lemma position_spec {A} (f : A -> bool) l :
    match position f l with
    | None => forall x, In x l -> f x = false
    | Some n => exists pre x post, l = pre ++ x :: post /\ length pre = n /\ f x = true /\
                  (forall y, In y pre -> f y = false)
    end.
  Proof.
    induction l as [|x l IH]; cbn [position].
    - intros x [].
    - destruct (f x) eqn:E.
      + exists [], x, l. repeat split; auto. intros y [].
      + destruct (position f l) as [n|]; cbn [option_map].
        * destruct IH as (pre & z & post & -> & <- & Hz & Hp). exists (x :: pre), z, post.
          repeat split; auto. intros y [<-|Hy]; auto.
        * intros y [<-|Hy]; auto.
  Qed.

  Lemma vec_remove_mid {A} (pre : list A) x post :
    vec_remove (length pre) (pre ++ x :: post) = Done (x, pre ++ post).
  Proof. induction pre as [|y pre IH]; cbn; auto. rewrite IH. reflexivity. Qed.

  Lemma try_push_spec s b :
    added_at (length b) b s (fst (try_push s b)) (snd (try_push s b)).
  Proof.
    unfold try_push. destruct s as [a|blk].
    - destruct (has_attribute (attr_key a) b) eqn:E; cbn [fst snd].
      + apply Rejected; auto. apply has_attribute_spec. exact E.
      + apply (Added _ b (SAttr a) b []); [now rewrite app_nil_r|reflexivity|].
        apply has_attribute_false. exact E.
    - apply (Added _ b (SBlock blk) b []); [now rewrite app_nil_r|reflexivity|exact I].
  Qed.

  Lemma try_insert_spec i s b :
    match try_insert i s b with
    | Done (b', r) => added_at i b s b' r
    | Panic => length b < i /\ addable b s
    end.
  Proof.
    unfold try_insert. pose proof (vec_insert_spec i s b) as H.
    destruct s as [a|blk].
    - destruct (has_attribute (attr_key a) b) eqn:E.
      + apply Rejected; auto. apply has_attribute_spec. exact E.
      + apply has_attribute_false in E. destruct (vec_insert i (SAttr a) b) as [r|]; cbn [rmap].
        * destruct H as (pre & post & Hb & Hl & ->). apply Added; auto.
        * split; [exact H|exact E].
    - destruct (vec_insert i (SBlock blk) b) as [r|]; cbn [rmap].
      + destruct H as (pre & post & Hb & Hl & ->). apply Added; auto. exact I.
      + split; [exact H|exact I].
  Qed.

  Lemma remove_attribute_spec k b :
    exists b' r, remove_attribute k b = Done (b', r) /\
      step_spec b (ORemoveAttribute k) b' (RAttribute r).
  Proof.
    unfold remove_attribute.
    match goal with |- context [position ?f b] => pose proof (position_spec f b) as H;
      destruct (position f b) as [n|] end.
    - destruct H as (pre & x & post & -> & <- & Hx & Hp). rewrite vec_remove_mid. cbn [rmap fst snd].
      destruct x as [a|blk]; [|discriminate]. do 2 eexists. split; [reflexivity|].
      cbn [as_attribute] in *. apply SpRemoveAttr; auto.
      + apply seqb_eq. exact Hx.
      + intros [v Hv]. apply Hp in Hv. cbn in Hv. unfold has_key in Hv. cbn in Hv.
        rewrite seqb_refl in Hv. discriminate.
    - do 2 eexists. split; [reflexivity|]. apply SpRemoveAttrNone.
      intros [v Hv]. apply H in Hv. cbn in Hv. unfold has_key in Hv. cbn in Hv.
      rewrite seqb_refl in Hv. discriminate.
  Qed.

  Lemma blocks_removed_none i b : (forall s, In s b -> ~ is_block_named i s) -> blocks_removed i b b [].
  Proof.
    induction b as [|s b IH]; intros H; constructor.
    - apply H. left. reflexivity.
    - apply IH. intros x Hx. apply H. right. exact Hx.
  Qed.

  Lemma blocks_removed_pre i pre b b' r :
    (forall s, In s pre -> ~ is_block_named i s) -> blocks_removed i b b' r ->
    blocks_removed i (pre ++ b) (pre ++ b') r.
  Proof.
    intros H Hb. induction pre as [|s pre IH]; cbn; auto. apply BR_other.
    - apply H. left. reflexivity.
    - apply IH. intros x Hx. apply H. right. exact Hx.
  Qed.

  Lemma blocks_removed_split i pre b c r :
    (forall s, In s pre -> ~ is_block_named i s) -> blocks_removed i (pre ++ b) c r ->
    exists b', c = pre ++ b' /\ blocks_removed i b b' r.
  Proof.
    intros H. revert c r. induction pre as [|s pre IH]; cbn; intros c r Hb; [eauto|].
    inversion Hb; subst.
    - exfalso. eapply H; [left; reflexivity|reflexivity].
    - match goal with X : blocks_removed i (pre ++ b) _ _ |- _ => rename X into Hb' end.
      destruct (IH (fun x Hx => H x (or_intror Hx)) _ _ Hb') as (b1 & -> & Hr). eauto.
  Qed.

  Lemma remove_blocks_loop_spec i fuel b : length b < fuel ->
    exists b' r, remove_blocks_loop fuel i b = Some (Done (b', r)) /\ blocks_removed i b b' r.
  Proof.
    revert b. induction fuel as [|fuel IH]; intros b L; [lia|]. cbn [remove_blocks_loop].
    unfold remove_block.
    match goal with |- context [position ?f b] => pose proof (position_spec f b) as H;
      destruct (position f b) as [n|] end.
    - destruct H as (pre & x & post & -> & <- & Hx & Hp). rewrite vec_remove_mid.
      destruct x as [a|blk]; [discriminate|]. cbn [rmap fst snd as_block] in *.
      assert (Hpre : forall s, In s pre -> ~ is_block_named i s).
      { intros [a|bb] Hs Hn; [exact Hn|]. apply Hp in Hs. cbn in Hs, Hn. unfold has_ident in Hs.
        rewrite Hn, seqb_refl in Hs. discriminate. }
      destruct (IH (pre ++ post)) as (b' & r & -> & Hr).
      { rewrite app_length in *. cbn in L. lia. }
      cbn [option_map rmap fst snd]. do 2 eexists. split; [reflexivity|].
      destruct (blocks_removed_split i pre post b' r Hpre Hr) as (c & -> & Hc).
      apply blocks_removed_pre; auto. apply BR_hit; auto. apply seqb_eq. exact Hx.
    - do 2 eexists. split; [reflexivity|]. apply blocks_removed_none.
      intros [a|bb] Hs Hn; [exact Hn|]. apply H in Hs. cbn in Hs, Hn. unfold has_ident in Hs.
      rewrite Hn, seqb_refl in Hs. discriminate.
  Qed.

  Lemma extend_spec l b : extended b l (extend l b).
  Proof.
    unfold extend. revert b. induction l as [|s l IH]; intros b; cbn [fold_left]; [constructor|].
    unfold push. pose proof (try_push_spec s b) as H. destruct (try_push s b) as [b' r].
    cbn [fst snd] in *. inversion H as [pre post Hb Hl Ha|a Hs Hc]; subst.
    - assert (post = []) as ->.
      { rewrite app_length in Hl. destruct post; auto. cbn in Hl. lia. }
      rewrite app_nil_r in *. apply Ext_add; auto.
    - apply Ext_skip; auto.
  Qed.

  Lemma set_value_spec k v b : step_spec b (OSetValue k v) (set_attribute_value k v b) RNone.
  Proof.
    assert (H : (~ contains_key b k /\ set_attribute_value k v b = b) \/
      exists pre w post, b = pre ++ SAttr (Attr k w) :: post /\ ~ contains_key pre k /\
        set_attribute_value k v b = pre ++ SAttr (Attr k v) :: post).
    { induction b as [|s b IH]; cbn [set_attribute_value].
      - left. split; auto. intros [w []].
      - assert (K : forall pre, ~ (exists a, s = SAttr a /\ attr_key a = k) ->
                  ~ contains_key pre k -> ~ contains_key (s :: pre) k).
        { intros pre H1 H2 Hc. apply contains_cons in Hc. destruct Hc; auto. }
        destruct s as [[k' w]|blk].
        + unfold has_key. cbn [attr_key]. destruct (seqb k' k) eqn:E.
          * apply seqb_eq in E. subst. right. exists [], w, b. repeat split. intros [? []].
          * apply seqb_neq in E.
            assert (N : ~ (exists a, SAttr (Attr k' w) = SAttr a /\ attr_key a = k)).
            { intros [a [Ha Hk]]. injection Ha as <-. cbn in Hk. congruence. }
            destruct IH as [[H ->]|(pre & u & post & -> & H & ->)].
            -- left. split; auto.
            -- right. exists (SAttr (Attr k' w) :: pre), u, post. repeat split; auto.
        + assert (N : ~ (exists a, @SBlock V blk = SAttr a /\ attr_key a = k)).
          { intros [a [Ha Hk]]. discriminate. }
          destruct IH as [[H ->]|(pre & u & post & -> & H & ->)].
          * left. split; auto.
          * right. exists (SBlock blk :: pre), u, post. repeat split; auto. }
    destruct H as [[H ->]|(pre & w & post & Hb & H & ->)].
    - apply SpSetValueNone; auto.
    - eapply SpSetValue; eauto.
  Qed.

  Lemma store_spec i s b : step_spec b (OStore i s) (store i s b) RNone.
  Proof.
    assert (H : (length b <= i /\ store i s b = b) \/
       exists pre x post, b = pre ++ x :: post /\ length pre = i /\ store i s b = pre ++ s :: post).
    { revert i. induction b as [|x b IH]; intros [|i]; cbn [store length]; auto; try (left; split; auto; lia).
      - right. exists [], x, b. auto.
      - destruct (IH i) as [[H ->]|(pre & y & post & -> & <- & ->)]; [left; split; auto; lia|].
        right. exists (x :: pre), y, post. auto. }
    destruct H as [[H ->]|(pre & w & post & Hb & <- & ->)].
    - apply SpStoreNone; auto.
    - eapply SpStore; eauto.
  Qed.

  (** The main refinement lemma: one step meets its specification, and panics exactly out of
      contract. *)
  Lemma step_refines o b :
    match step o b with
    | Done (b', r) => step_spec b o b' r /\ ~ panics b o
    | Panic => panics b o
    end.
  Proof.
    destruct o as [s|s|i s|i s| |i|k|i| |l|k v|fa fb|i s]; cbn [step panics].
    - split; [|tauto]. eapply SpPush. apply try_push_spec.
    - pose proof (try_push_spec s b) as H. destruct (try_push s b) as [b' r]. cbn in *.
      split; [|tauto]. apply SpTryPush. exact H.
    - unfold insert. pose proof (try_insert_spec i s b) as H.
      destruct (try_insert i s b) as [[b' r]|]; cbn [rmap fst snd]; auto.
      split; [eapply SpInsert; exact H|]. intros [Hl Ha].
      inversion H as [pre post Hb Hp|a Hs Hc]; subst.
      + rewrite app_length in Hl. lia.
      + exact (Ha Hc).
    - pose proof (try_insert_spec i s b) as H.
      destruct (try_insert i s b) as [[b' r]|]; cbn [rmap fst snd]; auto.
      split; [eapply SpTryInsert; exact H|]. intros [Hl Ha].
      inversion H as [pre post Hb Hp|a Hs Hc]; subst.
      + rewrite app_length in Hl. lia.
      + exact (Ha Hc).
    - pose proof (vec_pop_spec b) as H. destruct (vec_pop b) as [[x|] r]; split; auto.
      + apply SpPop. exact H.
      + destruct H as [-> ->]. apply SpPopNone. reflexivity.
    - pose proof (vec_remove_spec i b) as H. destruct (vec_remove i b) as [[x r]|]; cbn [rmap fst snd]; auto.
      destruct H as (pre & post & -> & <- & ->). split; [apply SpRemove; reflexivity|].
      rewrite app_length. cbn. lia.
    - destruct (remove_attribute_spec k b) as (b' & r & -> & H). cbn [rmap fst snd]. auto.
    - destruct (remove_blocks_loop_spec i (S (length b)) b) as (b' & r & E & H); [lia|].
      unfold remove_blocks. rewrite E. cbn [rmap fst snd]. split; auto. apply SpRemoveBlocks. exact H.
    - split; auto. constructor.
    - split; auto. apply SpExtend. apply extend_spec.
    - split; auto. apply set_value_spec.
    - split; auto. apply SpMutate. unfold mutate_all. induction b as [|[a|blk] b IH]; constructor; auto.
    - split; auto. apply store_spec.
  Qed.

  (** ** Uniqueness of keys *)
  Definition keys (b : body) : list str := map attr_key (attributes b).

  Lemma keys_cons s b : keys (s :: b) = match s with SAttr a => attr_key a :: keys b | _ => keys b end.
  Proof. destruct s; reflexivity. Qed.
  Lemma keys_app b c : keys (b ++ c) = keys b ++ keys c.
  Proof.
    induction b as [|s b IH]; auto. cbn [app]. rewrite !keys_cons, IH. destruct s; reflexivity.
  Qed.
  Lemma keys_in b k : In k (keys b) <-> contains_key b k.
  Proof.
    induction b as [|s b IH]; [split; [intros []|intros [v []]]|].
    rewrite keys_cons, contains_cons. destruct s as [a|blk]; cbn [In]; rewrite IH.
    - split; intros [H|H]; auto.
      + left. exists a. auto.
      + destruct H as [a' [H1 H2]]. injection H1 as <-. auto.
    - split; auto. intros [[a [H _]]|H]; [discriminate|auto].
  Qed.

  Lemma unique_keys_NoDup b : unique_keys b <-> NoDup (keys b).
  Proof.
    induction b as [|s b IH].
    - split; [constructor|]. intros _ i j k [v H]. destruct i; discriminate.
    - rewrite keys_cons. split.
      + intros U.
        assert (Ub : unique_keys b).
        { intros i j k Hi Hj. assert (S i = S j) by (apply (U (S i) (S j) k); assumption). lia. }
        apply IH in Ub. destruct s as [[k v]|blk]; auto. constructor; auto. cbn [attr_key].
        intros Hk. apply keys_in in Hk. destruct Hk as [w Hw]. apply In_nth_error in Hw.
        destruct Hw as [n Hn].
        assert (0 = S n) by (apply (U 0 (S n) k); [exists v; reflexivity|exists w; exact Hn]).
        discriminate.
      + intros N. assert (Ub : unique_keys b).
        { apply IH. destruct s; auto. inversion N; auto. }
        intros [|i] [|j] k Hi Hj; auto.
        * destruct Hi as [v Hv]. cbn in Hv. injection Hv as ->. inversion N as [|? ? H1 H2]; subst.
          exfalso. apply H1. apply keys_in. destruct Hj as [w Hw]. exists w.
          eapply nth_error_In. exact Hw.
        * destruct Hj as [v Hv]. cbn in Hv. injection Hv as ->. inversion N as [|? ? H1 H2]; subst.
          exfalso. apply H1. apply keys_in. destruct Hi as [w Hw]. exists w.
          eapply nth_error_In. exact Hw.
        * f_equal. apply (Ub i j k); assumption.
  Qed.

  Lemma NoDup_remove_mid {A} (a b c : list A) : NoDup (a ++ b ++ c) -> NoDup (a ++ c).
  Proof.
    induction b as [|x b IH]; auto. cbn. intros H. apply IH. eapply NoDup_remove_1. exact H.
  Qed.

  Lemma added_unique pos b s b' r :
    added_at pos b s b' r -> NoDup (keys b) -> NoDup (keys b').
  Proof.
    intros [pre post -> Hl Ha|a -> Hc] N; auto.
    rewrite keys_app, keys_cons in *. destruct s as [a|blk]; auto.
    apply NoDup_Add with (a := attr_key a) (l := keys pre ++ keys post).
    - apply Add_app.
    - split; auto. rewrite <- keys_app. intros H. apply keys_in in H. exact (Ha H).
  Qed.

  Lemma blocks_removed_keys i b b' r : blocks_removed i b b' r -> keys b' = keys b.
  Proof.
    induction 1 as [|blk b b' r Hi H IH|s b b' r Hn H IH]; auto.
    rewrite !keys_cons, IH. reflexivity.
  Qed.

  Lemma extended_unique b l b' : extended b l b' -> NoDup (keys b) -> NoDup (keys b').
  Proof.
    induction 1 as [b|b s l b' Ha H IH|b s l b' Ha H IH]; auto. intros N. apply IH.
    apply (added_unique (length b) b s (b ++ [s]) None); auto.
    apply (Added _ b s b []); auto. now rewrite app_nil_r.
  Qed.

  Lemma step_spec_unique b o b' r :
    step_spec b o b' r -> is_store o = false -> NoDup (keys b) -> NoDup (keys b').
  Proof.
    intros H Hs N. destruct H; try discriminate Hs; auto.
    - eapply added_unique; eauto.
    - eapply added_unique; eauto.
    - eapply added_unique; eauto.
    - eapply added_unique; eauto.
    - constructor.
    - subst b. rewrite keys_app in N. rewrite <- (app_nil_r (keys b')).
      apply (NoDup_remove_mid (keys b') (keys [s]) []). rewrite app_nil_r. exact N.
    - subst b. rewrite keys_app in *. change (s :: post) with ([s] ++ post) in N.
      rewrite keys_app in N. eapply NoDup_remove_mid. exact N.
    - subst b. rewrite keys_app in *. change (SAttr a :: post) with ([SAttr a] ++ post) in N.
      rewrite keys_app in N. eapply NoDup_remove_mid. exact N.
    - rewrite (blocks_removed_keys _ _ _ _ H). exact N.
    - constructor.
    - eapply extended_unique; eauto.
    - subst b. rewrite keys_app, keys_cons in *. exact N.
    - replace (keys b') with (keys b); auto. clear N. induction H as [|s s' b b' Hs' H IH]; auto.
      rewrite !keys_cons, IH. destruct s as [a|blk]; subst; reflexivity.
  Qed.

  Lemma run_unique ops b b' rs :
    forallb (fun o => negb (is_store o)) ops = true ->
    run ops b = Done (b', rs) -> NoDup (keys b) -> NoDup (keys b').
  Proof.
    revert b rs. induction ops as [|o ops IH]; intros b rs F; cbn [run].
    - intros H. injection H as <- <-. auto.
    - cbn [forallb] in F. apply andb_true_iff in F. destruct F as [Fo F].
      pose proof (step_refines o b) as S. destruct (step o b) as [[b1 r]|]; cbn [rbind]; [|discriminate].
      destruct S as [S _]. intros H N.
      destruct (run ops b1) as [[b2 rs2]|] eqn:E; cbn [rmap] in H; [|discriminate].
      injection H as <- <-. eapply IH; eauto. eapply step_spec_unique; eauto.
      now apply negb_true_iff.
  Qed.

  (** ** Histories refine the specification *)
  Inductive run_spec : body -> list (op V) -> body -> list (out V) -> Prop :=
  | RunNil b : run_spec b [] b []
  | RunCons b o b1 r ops b2 rs : step_spec b o b1 r -> run_spec b1 ops b2 rs ->
      run_spec b (o :: ops) b2 (r :: rs).

  Lemma run_refines ops b b' rs : run ops b = Done (b', rs) -> run_spec b ops b' rs.
  Proof.
    revert b rs. induction ops as [|o ops IH]; intros b rs; cbn [run].
    - intros H. injection H as <- <-. constructor.
    - pose proof (step_refines o b) as S. destruct (step o b) as [[b1 r]|]; cbn [rbind]; [|discriminate].
      destruct S as [S _].
      destruct (run ops b1) as [[b2 rs2]|] eqn:E; cbn [rmap]; [|discriminate].
      intros H. injection H as <- <-. econstructor; eauto.
  Qed.

  Lemma run_panics ops b :
    run ops b = Panic <->
    exists ops1 o ops2 b1 rs1, ops = ops1 ++ o :: ops2 /\ run ops1 b = Done (b1, rs1) /\ panics b1 o.
  Proof.
    revert b. induction ops as [|o ops IH]; intros b; cbn [run].
    - split; [discriminate|]. intros (ops1 & o & ops2 & b1 & rs1 & H & _). destruct ops1; discriminate.
    - pose proof (step_refines o b) as S. destruct (step o b) as [[b1 r]|] eqn:E; cbn [rbind].
      + destruct S as [_ S]. split.
        * intros H. destruct (run ops b1) as [[? ?]|] eqn:E1; [discriminate|].
          destruct (proj1 (IH b1) E1) as (ops1 & o' & ops2 & b2 & rs2 & -> & H1 & H2).
          exists (o :: ops1), o', ops2, b2, (r :: rs2). repeat split; auto.
          cbn [run]. rewrite E. cbn [rbind]. rewrite H1. reflexivity.
        * intros (ops1 & o' & ops2 & b2 & rs2 & H & H1 & H2). destruct ops1 as [|o1 ops1].
          -- cbn in *. injection H as <- <-. injection H1 as <- <-. contradiction.
          -- cbn in H. injection H as <- ->. cbn [run] in H1. rewrite E in H1. cbn [rbind] in H1.
             destruct (run ops1 b1) as [[b3 rs3]|] eqn:E1; cbn [rmap fst snd] in H1; [|discriminate].
             injection H1 as <- <-.
             rewrite (proj2 (IH b1)); [reflexivity|]. exists ops1, o', ops2, b3, rs3. auto.
      + split; auto. intros _. exists [], o, ops, b, []. auto.
  Qed.

  (** The specification determines the result, so it says everything there is to say. *)
  Lemma added_det pos b s b1 r1 b2 r2 :
    added_at pos b s b1 r1 -> added_at pos b s b2 r2 -> b1 = b2 /\ r1 = r2.
  Proof.
    intros [pre post H1 H2 H3|a H1 H2] [pre' post' H1' H2' H3'|a' H1' H2']; subst.
    - assert (pre = pre' /\ post = post') as [-> ->]; auto.
      clear H3 H3'. revert pre' H1' H2'. induction pre as [|x pre IH]; intros [|y pre']; cbn; intros; auto; try lia.
      injection H1' as -> H. injection H2' as H'. destruct (IH pre' H H') as [-> ->]. auto.
    - exfalso. exact (H3 H2').
    - exfalso. exact (H3' H2).
    - injection H1' as ->. auto.
  Qed.

  Lemma first_split_det k pre a post pre' a' post' :
    pre ++ SAttr a :: post = pre' ++ SAttr a' :: post' -> attr_key a = k -> attr_key a' = k ->
    ~ contains_key pre k -> ~ contains_key pre' k -> pre = pre' /\ a = a' /\ post = post'.
  Proof.
    revert pre'. induction pre as [|s pre IH]; intros [|s' pre']; cbn [app]; intros H Ha Ha' N N'.
    - injection H as -> ->. auto.
    - exfalso. apply N'. injection H as <- _. apply contains_cons. left. exists a. auto.
    - exfalso. apply N. injection H as -> _. apply contains_cons. left. exists a'. auto.
    - injection H as -> H. destruct (IH pre' H) as (-> & -> & ->); auto.
      + intros C. apply N. apply contains_cons. auto.
      + intros C. apply N'. apply contains_cons. auto.
  Qed.

  Lemma blocks_removed_det i b b1 r1 b2 r2 :
    blocks_removed i b b1 r1 -> blocks_removed i b b2 r2 -> b1 = b2 /\ r1 = r2.
  Proof.
    intros H. revert b2 r2. induction H as [|blk b b' r Hi H IH|s b b' r Hn H IH]; intros b2 r2 H2; inversion H2; subst; auto.
    - edestruct IH as [-> ->]; eauto.
    - exfalso. match goal with X : ~ _ |- _ => apply X; reflexivity end.
    - exfalso. apply Hn. reflexivity.
    - edestruct IH as [-> ->]; eauto.
  Qed.

  Lemma extended_det b l b1 b2 : extended b l b1 -> extended b l b2 -> b1 = b2.
  Proof.
    intros H. revert b2. induction H; intros b2 H2; inversion H2; subst; auto; contradiction.
  Qed.

  Lemma step_spec_det b o b1 r1 b2 r2 :
    step_spec b o b1 r1 -> step_spec b o b2 r2 -> b1 = b2 /\ r1 = r2.
  Proof.
    intros H1 H2. destruct H1; inversion H2; subst; auto.
    - match goal with A : added_at _ b s _ _, B : added_at _ b s _ _ |- _ =>
        destruct (added_det _ _ _ _ _ _ _ A B); subst; auto end.
    - match goal with A : added_at _ b s _ _, B : added_at _ b s _ _ |- _ =>
        destruct (added_det _ _ _ _ _ _ _ A B); subst; auto end.
    - match goal with A : added_at _ b s _ _, B : added_at _ b s _ _ |- _ =>
        destruct (added_det _ _ _ _ _ _ _ A B); subst; auto end.
    - match goal with A : added_at _ b s _ _, B : added_at _ b s _ _ |- _ =>
        destruct (added_det _ _ _ _ _ _ _ A B); subst; auto end.
    - exfalso. match goal with X : [] = _ ++ [_] |- _ => apply app_cons_not_nil in X; exact X end.
    - exfalso. match goal with X : _ ++ [_] = [] |- _ => symmetry in X; apply app_cons_not_nil in X; exact X end.
    - match goal with X : _ ++ [_] = _ ++ [_] |- _ => apply app_inj_tail in X; destruct X as [-> ->] end. auto.
    - assert (pre0 = pre /\ s0 = s /\ post0 = post) as (-> & -> & ->); auto.
      clear H2.
      match goal with X : length pre0 = length pre |- _ => revert X end.
      match goal with X : _ ++ _ :: _ = _ ++ _ :: _ |- _ => revert X end.
      revert pre0. induction pre as [|x pre IH]; intros [|y p]; cbn; intros E L; try discriminate.
      + injection E as -> ->. auto.
      + injection E as -> E. injection L as L. destruct (IH p E L) as (-> & -> & ->). auto.
    - edestruct (first_split_det (attr_key a) pre a post pre0 a0 post0) as (-> & -> & ->); auto.
    - exfalso. match goal with X : ~ contains_key (_ ++ _) _ |- _ => apply X end.
      apply contains_app. right. apply contains_cons. left. eauto.
    - exfalso. match goal with X : ~ contains_key (_ ++ _) _ |- _ => apply X end.
      apply contains_app. right. apply contains_cons. left. eauto.
    - edestruct (blocks_removed_det i b) as [-> ->]; eauto.
    - split; auto. eapply extended_det; eauto.
    - edestruct (first_split_det k pre (Attr k w) post pre0 (Attr k w0) post0) as (-> & _ & ->); auto.
    - exfalso. match goal with X : ~ contains_key (_ ++ _) _ |- _ => apply X end.
      apply contains_app. right. apply contains_cons. left. exists (Attr k w). auto.
    - exfalso. match goal with X : ~ contains_key (_ ++ _) _ |- _ => apply X end.
      apply contains_app. right. apply contains_cons. left. exists (Attr k w). auto.
    - split; auto. clear H2.
      match goal with X : Forall2 _ b b2 |- _ => revert b2 X end.
      induction H as [|x y l l' Hxy HF IHF]; intros b2 X; inversion X; subst; auto.
      f_equal; auto. destruct x; congruence.
    - split; auto. clear H2.
      assert (pre0 = pre /\ post0 = post) as (-> & ->); auto.
      match goal with X : length pre0 = length pre |- _ => revert X end.
      match goal with X : _ ++ _ :: _ = _ ++ _ :: _ |- _ => revert X end.
      revert pre0. induction pre as [|z pre IH]; intros [|y p]; cbn; intros E L; try discriminate.
      + injection E as -> ->. auto.
      + injection E as -> E. injection L as L. destruct (IH p E L) as (-> & ->). auto.
    - exfalso. match goal with X : length (_ ++ _) <= _ |- _ => rewrite app_length in X; cbn in X; lia end.
    - exfalso. match goal with X : length (_ ++ _) <= _ |- _ => rewrite app_length in X; cbn in X; lia end.
  Qed.

  (** ** Lookups *)
  Lemma get_attribute_spec b k :
    match get_attribute k b with
    | Some a => exists pre post, b = pre ++ SAttr a :: post /\ attr_key a = k /\ ~ contains_key pre k
    | None => ~ contains_key b k
    end.
  Proof.
    unfold get_attribute. induction b as [|s b IH]; cbn [filter_map find].
    - intros [v []].
    - destruct s as [[k' v]|blk]; cbn [as_attribute find].
      + unfold has_key at 1. cbn [attr_key]. destruct (seqb k' k) eqn:E.
        * apply seqb_eq in E. subst. exists [], b. repeat split. intros [w []].
        * apply seqb_neq in E.
          assert (N : forall c, ~ contains_key c k -> ~ contains_key (SAttr (Attr k' v) :: c) k).
          { intros c Hc H. apply contains_cons in H. destruct H as [[a [Ha Hk]]|H]; auto.
            injection Ha as <-. cbn in Hk. congruence. }
          destruct (find _ (filter_map as_attribute b)) as [a|]; auto.
          destruct IH as (pre & post & -> & Hk & Hp). exists (SAttr (Attr k' v) :: pre), post. auto.
      + assert (N : forall c, ~ contains_key c k -> ~ contains_key (SBlock blk :: c) k).
        { intros c Hc H. apply contains_cons in H. destruct H as [[a [Ha Hk]]|H]; auto. discriminate. }
        destruct (find _ (filter_map as_attribute b)) as [a|]; auto.
        destruct IH as (pre & post & -> & Hk & Hp). exists (SBlock blk :: pre), post. auto.
  Qed.

  Lemma get_blocks_spec i b : exists b', blocks_removed i b b' (get_blocks i b).
  Proof.
    unfold get_blocks. induction b as [|s b [b' IH]]; cbn [filter_map filter].
    - exists []. constructor.
    - destruct s as [a|blk]; cbn [as_block filter].
      + exists (SAttr a :: b'). apply BR_other; auto.
      + unfold has_ident at 1. destruct (seqb (block_ident blk) i) eqn:E.
        * exists b'. apply BR_hit; auto. apply seqb_eq. exact E.
        * exists (SBlock blk :: b'). apply BR_other; auto. apply seqb_neq. exact E.
  Qed.

  Lemma has_blocks_spec i b : has_blocks i b = true <-> exists s, In s b /\ is_block_named i s.
  Proof.
    unfold has_blocks. destruct (get_blocks_spec i b) as [b' H].
    remember (get_blocks i b) as r eqn:E. clear E. induction H as [|blk b b' r Hi H IH|s b b' r Hn H IH].
    - split; [discriminate|intros [s [[] _]]].
    - split; auto. intros _. exists (SBlock blk). split; [left; reflexivity|exact Hi].
    - rewrite IH. split; intros [x [Hx Hb]]; exists x; split; auto.
      + right. exact Hx.
      + destruct Hx as [->|Hx]; auto. contradiction.
  Qed.

  (** ** Labels *)
  Lemma zip_all_eq_spec ls ks : length ks <= length ls ->
    zip_all_eq ls ks = true <-> firstn (length ks) (map label_str ls) = ks.
  Proof.
    revert ks. induction ls as [|l ls IH]; intros [|k ks]; cbn [zip_all_eq length map firstn]; intros L;
      try (split; auto; fail); try lia.
    rewrite andb_true_iff, seqb_eq, IH by lia. split; [intros [-> ->]; auto|].
    intros H. injection H as H1 H2. auto.
  Qed.

  Lemma has_labels_spec (b : block) ks :
    has_labels b ks = true <-> exists rest, map label_str (block_labels b) = ks ++ rest.
  Proof.
    unfold has_labels. destruct (Nat.ltb_spec (length (block_labels b)) (length ks)) as [L|L].
    - split; [discriminate|]. intros [rest H]. apply (f_equal (@length _)) in H.
      rewrite map_length, app_length in H. lia.
    - rewrite zip_all_eq_spec by exact L. split.
      + intros H. exists (skipn (length ks) (map label_str (block_labels b))).
        rewrite <- H at 1. now rewrite firstn_skipn.
      + intros [rest H]. rewrite H. rewrite firstn_app, Nat.sub_diag, firstn_all. cbn.
        now rewrite app_nil_r.
  Qed.

  Lemma has_exact_labels_spec (b : block) ks :
    has_exact_labels b ks = true <-> map label_str (block_labels b) = ks.
  Proof.
    unfold has_exact_labels. rewrite andb_true_iff, Nat.eqb_eq, has_labels_spec. split.
    - intros [L [rest H]]. pose proof (f_equal (@length _) H) as HL.
      rewrite map_length, app_length in HL. destruct rest; [|cbn in HL; lia].
      now rewrite app_nil_r in H.
    - intros <-. split; [now rewrite map_length|exists []; now rewrite app_nil_r].
  Qed.
End BodyProofs.

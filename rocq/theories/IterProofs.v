(** * Proofs about iterators and builders of bodies *)
From Coq Require Import NArith Arith Bool List Lia.
From Verif Require Import Str Ast IterModel IterSpec.
Import ListNotations.
Open Scope nat_scope.

(** ** Double-ended queues *)
Lemma next_back_app {A} (l : list A) x : next_back (l ++ [x]) = (Some x, l).
Proof. unfold next_back. rewrite rev_app_distr. cbn. now rewrite rev_involutive. Qed.
Lemma next_back_inv {A} (l : list A) o l' :
  next_back l = (o, l') -> (o = None /\ l = [] /\ l' = []) \/ exists x, o = Some x /\ l = l' ++ [x].
Proof.
  destruct l as [|y l] using rev_ind; [cbn; intros [= <- <-]; now left|].
  rewrite next_back_app. intros [= <- <-]. right. now exists y.
Qed.

Section FindMap.
  Context {A B : Type} (f : A -> option B).
  Definition vis (l : list A) : list B := flat_map (fun x => match f x with Some y => [y] | None => [] end) l.
  Lemma vis_app a b : vis (a ++ b) = vis a ++ vis b.
  Proof. apply flat_map_app. Qed.

  Lemma find_map_spec l :
    (exists sk x y l', l = sk ++ x :: l' /\ vis sk = [] /\ f x = Some y /\ find_map f l = (Some y, l')) \/
    (vis l = [] /\ find_map f l = (None, [])).
  Proof.
    induction l as [|x l IH]; [now right|]. cbn. destruct (f x) as [y|] eqn:E.
    - left. exists [], x, y, l. now repeat split.
    - destruct IH as [(sk & x' & y & l' & -> & H & F & ->)|[H ->]].
      + left. exists (x :: sk), x', y, l'. repeat split; trivial. cbn. now rewrite E.
      + right. split; [exact H|easy].
  Qed.
  Lemma back_loop_spec n l :
    length l < n ->
    (exists sk x y l', l = l' ++ x :: sk /\ vis sk = [] /\ f x = Some y /\ back_loop f n l = (Some y, l')) \/
    (vis l = [] /\ back_loop f n l = (None, [])).
  Proof.
    revert l. induction n as [|n IH]; intros l Hn; [lia|]. cbn [back_loop].
    destruct l as [|z l _] using rev_ind; [right; now split|].
    rewrite next_back_app. rewrite app_length in Hn. cbn in Hn. destruct (f z) as [y|] eqn:E.
    - left. exists [], z, y, l. now repeat split.
    - destruct (IH l ltac:(lia)) as [(sk & x' & y & l' & -> & H & F & ->)|[H ->]].
      + left. exists (sk ++ [z]), x', y, l'. repeat split; trivial.
        * now rewrite <- app_assoc.
        * rewrite vis_app, H. cbn. now rewrite E.
      + right. split; [|easy]. rewrite vis_app, H. cbn. now rewrite E.
  Qed.
  Lemma find_back_spec l :
    (exists sk x y l', l = l' ++ x :: sk /\ vis sk = [] /\ f x = Some y /\ find_back f l = (Some y, l')) \/
    (vis l = [] /\ find_back f l = (None, [])).
  Proof. apply back_loop_spec. lia. Qed.
End FindMap.

(** ** Histories *)
Section Deliver.
  Context {A : Type}.
  Implicit Types (l rest : list A) (r : list (side * option A)).
  Lemma delivers_nil l : delivers l [] l.
  Proof. split; [cbn; now rewrite app_nil_r|]. now intros [|? ?] d r2. Qed.
  Lemma delivers_front x l r rest : delivers l r rest -> delivers (x :: l) ((Front, Some x) :: r) rest.
  Proof.
    intros [-> H]. split; [reflexivity|]. intros [|p r1] d r2 E; [easy|]. injection E as _ ->. now apply (H r1 d).
  Qed.
  Lemma delivers_back x l r rest : delivers l r rest -> delivers (l ++ [x]) ((Back, Some x) :: r) rest.
  Proof.
    intros [-> H]. split; [cbn; now rewrite <- !app_assoc|].
    intros [|p r1] d r2 E; [easy|]. injection E as _ ->. now apply (H r1 d).
  Qed.
  Lemma delivers_none d r rest : delivers [] r rest -> delivers [] ((d, None) :: r) rest.
  Proof.
    intros [E H]. symmetry in E. destruct (app_eq_nil _ _ E) as [E1 E2].
    destruct (app_eq_nil _ _ E2) as [E3 E4].
    assert (E5 : got Back r = []).
    { apply (f_equal (@rev A)) in E4. now rewrite rev_involutive in E4. }
    split.
    - replace (got Front ((d, None) :: r)) with (got Front r) by now destruct d.
      replace (got Back ((d, None) :: r)) with (got Back r) by now destruct d.
      now rewrite E1, E3, E5.
    - intros [|p r1] d' r2 E'.
      + injection E' as -> ->. now repeat split.
      + injection E' as _ ->. now apply (H r1 d').
  Qed.
End Deliver.

Lemma all_delivers (l : rbody) h : let (r, rest) := run step_all h l in delivers l r rest.
Proof.
  revert l. induction h as [|d h IH]; intros l; [apply delivers_nil|]. cbn.
  destruct d; cbn [step_all].
  - destruct l as [|x l]; cbn; specialize (IH l) || specialize (IH []);
      match goal with |- context [run step_all h ?k] => destruct (run step_all h k) as [r rest] end.
    + now apply delivers_none.
    + now apply delivers_front.
  - destruct (next_back l) as [o l'] eqn:E. specialize (IH l').
    destruct (run step_all h l') as [r rest].
    destruct (next_back_inv _ _ _ E) as [(-> & -> & ->)|(x & -> & ->)].
    + now apply delivers_none.
    + now apply delivers_back.
Qed.
Section Found.
  Context {A : Type} (f : struct_ -> option A).
  Definition found (s : side) (l : rbody) : option A * rbody :=
    match s with Front => find_map f l | Back => find_back f l end.
  Lemma found_delivers l h : let (r, rest) := run found h l in delivers (vis f l) r (vis f rest).
  Proof.
    revert l. induction h as [|d h IH]; intros l; [apply delivers_nil|]. cbn. unfold found at 1.
    destruct d.
    - destruct (find_map_spec f l) as [(sk & x & y & l' & -> & V & F & ->)|[V ->]].
      + specialize (IH l'). destruct (run found h l') as [r rest].
        rewrite vis_app, V. cbn. rewrite F. now apply delivers_front.
      + specialize (IH []). destruct (run found h []) as [r rest]. rewrite V. now apply delivers_none.
    - destruct (find_back_spec f l) as [(sk & x & y & l' & -> & V & F & ->)|[V ->]].
      + specialize (IH l'). destruct (run found h l') as [r rest].
        rewrite vis_app. cbn. rewrite F. fold (vis f sk). rewrite V. now apply delivers_back.
      + specialize (IH []). destruct (run found h []) as [r rest]. rewrite V. now apply delivers_none.
  Qed.
End Found.
Lemma vis_attributes l : vis as_attribute l = attributes l.
Proof. induction l as [|[k e|i ls b] l IH]; cbn; trivial. now f_equal. Qed.
Lemma vis_blocks l : vis as_block l = blocks l.
Proof. induction l as [|[k e|i ls b] l IH]; cbn; trivial. now f_equal. Qed.

(** ** Writes *)
Section Mut.
  Context {A : Type} (view : struct_ -> option A) (put : A -> struct_) (VP : forall a, view (put a) = Some a).
  (** What the iterator does not see. *)
  Definition hidden (l : rbody) : list (option struct_) :=
    map (fun s => match view s with Some _ => None | None => Some s end) l.
  Lemma set_nth_app {B} (a : list B) x y b : set_nth (length a) y (a ++ x :: b) = a ++ y :: b.
  Proof.
    unfold set_nth. rewrite skipn_app, skipn_all, Nat.sub_diag. cbn.
    rewrite firstn_app, Nat.sub_diag, firstn_all. cbn. now rewrite app_nil_r.
  Qed.
  Lemma view_at_app pre x rest : view_at view (pre ++ x :: rest) (length pre) = option_map (fun a => (length pre, a)) (view x).
  Proof. unfold view_at. rewrite nth_error_app2, Nat.sub_diag by lia. reflexivity. Qed.
  (** The positions of a part of a body. *)
  Lemma vis_at pre mid post :
    vis (view_at view (pre ++ mid ++ post)) (seq (length pre) (length mid)) =
    flat_map (fun p => match view (snd p) with Some a => [(fst p, a)] | None => [] end)
             (combine (seq (length pre) (length mid)) mid).
  Proof.
    revert pre. induction mid as [|x mid IH]; intros pre; [reflexivity|]. cbn -[seq view_at].
    cbn [seq]. cbn [vis flat_map combine fst snd]. rewrite view_at_app. f_equal.
    - now destruct (view x).
    - specialize (IH (pre ++ [x])). rewrite app_length in IH. cbn in IH. rewrite Nat.add_1_r in IH.
      rewrite <- app_assoc in IH. exact IH.
  Qed.
  Lemma seq_mid s n a i b :
    seq s n = a ++ i :: b -> i = s + length a /\ a = seq s (length a) /\ b = seq (S i) (length b) /\ n = length a + S (length b).
  Proof.
    revert s n. induction a as [|y a IH]; intros s n E; destruct n as [|n]; try discriminate; cbn in *.
    - injection E as E1 E2. subst i b. rewrite seq_length. repeat split; lia.
    - injection E as <- E. destruct (IH _ _ E) as (-> & Ea & Eb & ->). repeat split; try lia.
      + now f_equal.
      + exact Eb.
  Qed.

  Lemma split_at {B} (l : list B) n k : length l = n + S k -> exists a x b, l = a ++ x :: b /\ length a = n /\ length b = k.
  Proof.
    intros H. exists (firstn n l).
    destruct (skipn n l) as [|x b] eqn:E.
    - apply (f_equal (@length B)) in E. rewrite skipn_length in E. cbn in E. lia.
    - exists x, b. repeat split.
      + rewrite <- E. symmetry. apply firstn_skipn.
      + rewrite firstn_length. lia.
      + apply (f_equal (@length B)) in E. rewrite skipn_length in E. cbn in E. lia.
  Qed.
  (** Nothing found among the positions of a part: it has nothing to see. *)
  Lemma vis_none pre mid post :
    vis (view_at view (pre ++ mid ++ post)) (seq (length pre) (length mid)) = [] -> vis view mid = [].
  Proof.
    rewrite vis_at. generalize (length pre). induction mid as [|x mid IH]; intros n E; [reflexivity|].
    cbn in *. destruct (view x); [easy|]. exact (IH _ E).
  Qed.
  Lemma hidden_app a b : hidden (a ++ b) = hidden a ++ hidden b.
  Proof. apply map_app. Qed.
  Lemma hidden_put a : hidden [put a] = [None].
  Proof. cbn. now rewrite VP. Qed.
  Lemma hidden_seen x a : view x = Some a -> hidden [x] = [None].
  Proof. cbn. now intros ->. Qed.

  (** Where an element was found. *)
  Lemma found_at pre mid post sk1 i sk2 y :
    seq (length pre) (length mid) = sk1 ++ i :: sk2 ->
    view_at view (pre ++ mid ++ post) i = Some y ->
    exists m1 x m2 a, mid = m1 ++ x :: m2 /\ length m1 = length sk1 /\ length m2 = length sk2 /\
      i = length (pre ++ m1) /\ view x = Some a /\ y = (i, a) /\
      sk1 = seq (length pre) (length m1) /\ sk2 = seq (length (pre ++ m1 ++ [x])) (length m2) /\
      set_nth i (put a) (pre ++ mid ++ post) = (pre ++ m1) ++ put a :: m2 ++ post.
  Proof.
    intros E V. destruct (seq_mid _ _ _ _ _ E) as (Ei & E1 & E2 & En).
    destruct (split_at mid (length sk1) (length sk2) En) as (m1 & x & m2 & -> & L1 & L2).
    assert (Hl : pre ++ (m1 ++ x :: m2) ++ post = (pre ++ m1) ++ x :: (m2 ++ post)) by now rewrite <- !app_assoc.
    assert (Hi : i = length (pre ++ m1)) by (rewrite app_length; lia).
    rewrite Hl in *. rewrite Hi in V. rewrite view_at_app in V.
    destruct (view x) as [a|] eqn:Ex; [|easy]. injection V as <-.
    exists m1, x, m2, a. repeat split; trivial.
    - now rewrite Hi.
    - now rewrite L1.
    - rewrite L2. rewrite E2 at 1. f_equal. rewrite Hi, !app_length. cbn. lia.
    - rewrite Hi. apply set_nth_app.
  Qed.

  Lemma run_at_spec h : forall pre mid post,
    let (r, l') := run_at view put h (pre ++ mid ++ post) (seq (length pre) (length mid)) in
    exists a mid' b, l' = pre ++ (a ++ mid' ++ b) ++ post /\
      delivers (vis view mid) (seen r) (vis view mid') /\
      vis view a = map snd (got Front r) /\ vis view b = rev (map snd (got Back r)) /\
      hidden (a ++ mid' ++ b) = hidden mid.
  Proof.
    induction h as [|[d w] h IH]; intros pre mid post.
    { cbn. exists [], mid, []. cbn. rewrite app_nil_r. repeat split; trivial.
      - cbn. now rewrite app_nil_r.
      - now destruct r1.
      - now destruct r1.
      - now destruct r1. }
    assert (None_case : vis view mid = [] ->
      let (r, l') := (let (r, l) := run_at view put h (pre ++ mid ++ post) [] in ((d, None) :: r, l)) in
      exists a mid' b, l' = pre ++ (a ++ mid' ++ b) ++ post /\
        delivers (vis view mid) (seen r) (vis view mid') /\
        vis view a = map snd (got Front r) /\ vis view b = rev (map snd (got Back r)) /\
        hidden (a ++ mid' ++ b) = hidden mid).
    { intros V. specialize (IH (pre ++ mid) [] post). cbn [length seq app] in IH. rewrite <- app_assoc in IH.
      destruct (run_at view put h (pre ++ mid ++ post) []) as [r l'].
      destruct IH as (a & mid' & b & -> & D & Va & Vb & Hh).
      exists (mid ++ a), mid', b. split; [|split; [|split; [|split]]].
      - now rewrite <- !app_assoc.
      - rewrite V. cbn [seen map fst snd option_map]. apply delivers_none. exact D.
      - rewrite vis_app, V, Va. cbn. now destruct d.
      - rewrite Vb. cbn. now destruct d.
      - rewrite <- app_assoc, hidden_app, Hh. cbn. apply app_nil_r. }
    cbn [run_at]. unfold find_at. destruct d.
    - destruct (find_map_spec (view_at view (pre ++ mid ++ post)) (seq (length pre) (length mid)))
        as [(sk & i & y & todo & E & V & F & ->)|[V ->]]; [|now apply None_case, (vis_none pre mid post)].
      destruct (found_at _ _ _ _ _ _ _ E F) as (m1 & x & m2 & a0 & -> & L1 & L2 & Hi & Ex & -> & S1 & S2 & _).
      assert (Hl : pre ++ (m1 ++ x :: m2) ++ post = (pre ++ m1) ++ x :: (m2 ++ post)) by now rewrite <- !app_assoc.
      rewrite S1 in V. replace (pre ++ (m1 ++ x :: m2) ++ post) with (pre ++ m1 ++ (x :: m2 ++ post)) in V
        by now rewrite <- !app_assoc.
      apply vis_none in V.
      rewrite Hl, Hi, set_nth_app.
      specialize (IH (pre ++ m1 ++ [put (w a0)]) m2 post).
      replace ((pre ++ m1 ++ [put (w a0)]) ++ m2 ++ post) with ((pre ++ m1) ++ put (w a0) :: m2 ++ post) in IH
        by now rewrite <- !app_assoc.
      replace (seq (length (pre ++ m1 ++ [put (w a0)])) (length m2)) with todo in IH
        by (rewrite S2, !app_length; reflexivity).
      destruct (run_at view put h _ todo) as [r l'].
      destruct IH as (a & mid' & b & -> & D & Va & Vb & Hh).
      exists (m1 ++ put (w a0) :: a), mid', b. split; [|split; [|split; [|split]]].
      + repeat (rewrite <- !app_assoc; cbn [app]). reflexivity.
      + rewrite vis_app, V. cbn [vis flat_map app]. rewrite Ex. cbn. apply delivers_front. exact D.
      + rewrite vis_app, V. cbn. rewrite VP. cbn. f_equal. exact Va.
      + exact Vb.
      + rewrite <- app_assoc. cbn [app]. rewrite !hidden_app.
        change (hidden (put (w a0) :: a ++ mid' ++ b)) with (hidden [put (w a0)] ++ hidden (a ++ mid' ++ b)).
        change (hidden (x :: m2)) with (hidden [x] ++ hidden m2).
        now rewrite hidden_put, (hidden_seen x a0 Ex), Hh.
    - destruct (find_back_spec (view_at view (pre ++ mid ++ post)) (seq (length pre) (length mid)))
        as [(sk & i & y & todo & E & V & F & ->)|[V ->]]; [|now apply None_case, (vis_none pre mid post)].
      destruct (found_at _ _ _ _ _ _ _ E F) as (m1 & x & m2 & a0 & -> & L1 & L2 & Hi & Ex & -> & S1 & S2 & _).
      assert (Hl : pre ++ (m1 ++ x :: m2) ++ post = (pre ++ m1) ++ x :: (m2 ++ post)) by now rewrite <- !app_assoc.
      rewrite S2 in V. replace (pre ++ (m1 ++ x :: m2) ++ post) with ((pre ++ m1 ++ [x]) ++ m2 ++ post) in V
        by now rewrite <- !app_assoc.
      apply vis_none in V.
      rewrite Hl, Hi, set_nth_app.
      specialize (IH pre m1 (put (w a0) :: m2 ++ post)).
      replace (pre ++ m1 ++ put (w a0) :: m2 ++ post) with ((pre ++ m1) ++ put (w a0) :: m2 ++ post) in IH
        by now rewrite <- !app_assoc.
      rewrite <- S1 in IH.
      destruct (run_at view put h _ todo) as [r l'].
      destruct IH as (a & mid' & b & -> & D & Va & Vb & Hh).
      exists a, mid', (b ++ put (w a0) :: m2). split; [|split; [|split; [|split]]].
      + repeat (rewrite <- !app_assoc; cbn [app]). reflexivity.
      + rewrite vis_app. cbn [vis flat_map app]. rewrite Ex. fold (vis view m2). rewrite V.
        cbn. apply delivers_back. exact D.
      + exact Va.
      + rewrite vis_app. cbn. rewrite VP. fold (vis view m2). rewrite V, Vb. reflexivity.
      + replace (a ++ mid' ++ b ++ put (w a0) :: m2) with ((a ++ mid' ++ b) ++ put (w a0) :: m2)
          by (rewrite <- !app_assoc; reflexivity).
        rewrite !hidden_app in *. rewrite Hh.
        change (hidden (put (w a0) :: m2)) with (hidden [put (w a0)] ++ hidden m2).
        change (hidden (x :: m2)) with (hidden [x] ++ hidden m2).
        now rewrite hidden_put, (hidden_seen x a0 Ex).
  Qed.
  Lemma run_mut_spec h l :
    let (r, l') := run_mut view put h l in
    (exists rest, rewrites (vis view l) r rest (vis view l')) /\ hidden l' = hidden l.
  Proof.
    unfold run_mut. generalize (run_at_spec h [] l []). cbn [app length]. rewrite app_nil_r.
    destruct (run_at view put h l (seq 0 (length l))) as [r l'].
    intros (a & mid' & b & -> & D & Va & Vb & Hh). cbn. rewrite app_nil_r. split; [|exact Hh].
    exists (vis view mid'). split; [exact D|]. now rewrite !vis_app, Va, Vb.
  Qed.
End Mut.

Lemma hidden_attributes l : hidden as_attribute l = map (fun s => match s with SAttribute _ _ => None | s => Some s end) l.
Proof. unfold hidden. apply map_ext. now intros [|]. Qed.
Lemma hidden_attributes_same l l' :
  hidden as_attribute l' = hidden as_attribute l -> blocks l' = blocks l /\ kinds l' = kinds l.
Proof.
  rewrite !hidden_attributes. revert l. induction l' as [|s' l' IH]; intros [|s l] E; try discriminate; [easy|].
  injection E as E1 E2. destruct (IH _ E2) as [Hb Hk].
  destruct s', s; try discriminate; try (injection E1 as -> -> ->); cbn; fold (kinds l) (kinds l'); now rewrite Hb, Hk.
Qed.
Lemma hidden_blocks l : hidden as_block l = map (fun s => match s with SBlk _ _ _ => None | s => Some s end) l.
Proof. unfold hidden. apply map_ext. now intros [|]. Qed.
Lemma hidden_blocks_same l l' :
  hidden as_block l' = hidden as_block l -> attributes l' = attributes l /\ kinds l' = kinds l.
Proof.
  rewrite !hidden_blocks. revert l. induction l' as [|s' l' IH]; intros [|s l] E; try discriminate; [easy|].
  injection E as E1 E2. destruct (IH _ E2) as [Hb Hk].
  destruct s', s; try discriminate; try (injection E1 as -> ->); cbn; fold (kinds l) (kinds l'); now rewrite Hb, Hk.
Qed.
Lemma vis_some (l : rbody) : vis (fun s => Some s) l = l.
Proof. induction l as [|s l IH]; cbn; trivial. now f_equal. Qed.

(** ** Builders *)
Lemma body_call_added c b : body_call c b = b ++ added c.
Proof.
  destruct c as [[k e]|l|[[i ls] b']|l|s|l|l|l]; cbn; trivial; now rewrite app_nil_r.
Qed.
Lemma build_body_eq cs : build_body cs = flat_map added cs.
Proof.
  unfold build_body, from_iter, extend. cbn.
  enough (H : forall b, fold_left (fun b c => body_call c b) cs b = b ++ flat_map added cs) by apply H.
  induction cs as [|c cs IH]; intros b; cbn; [now rewrite app_nil_r|].
  now rewrite IH, body_call_added, <- app_assoc.
Qed.
Lemma build_block_eq i cs : build_block i cs = (i, flat_map labels cs, flat_map added cs).
Proof.
  unfold build_block, from_iter, extend. cbn.
  enough (H : forall st, fold_left (fun st c => block_call c st) cs st =
                         (fst st ++ flat_map labels cs, snd st ++ flat_map added cs)) by now rewrite H.
  induction cs as [|c cs IH]; intros [ls b]; cbn; [now rewrite !app_nil_r|].
  rewrite IH. destruct c; cbn [block_call fst snd labels added flat_map app];
    rewrite ?body_call_added; cbn [added]; rewrite <- ?app_assoc; reflexivity.
Qed.

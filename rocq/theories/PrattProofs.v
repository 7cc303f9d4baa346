(** * Proofs about the grouping of operators *)
From Coq Require Import NArith Arith Bool String List Lia.
From Verif Require Import Res Str PrimModel EAst ParseBase ParseModel PrattSpec.
Import ListNotations.
Open Scope nat_scope.

Notation bin := (@snd meta binop).
Notation tree := (optree xexpr oper).
Fixpoint tree_expr (t : tree) : xexpr :=
  match t with Leaf a => a | Node l o r => infix_expr (tree_expr l) o (tree_expr r) end.

Lemma lbp_ge o : 10 <= lbp o.
Proof. destruct o; cbn; lia. Qed.
Lemma comparison_neither o : comparison o <-> is_neither o = true.
Proof. destruct o; cbn; intuition congruence. Qed.
Lemma prec_neither o o' : precedence o = precedence o' -> is_neither o = is_neither o'.
Proof. destruct o, o'; cbn; congruence. Qed.

Lemma pratt_total n : forall rbp lhs nbp ops, length ops < n ->
  exists r rest, pratt n rbp lhs nbp ops = Some (r, rest) /\ length rest <= length ops.
Proof.
  induction n as [|n IH]; intros rbp lhs nbp ops H; [lia|]. cbn [pratt]. destruct ops as [|[o e] rest]; [eauto|].
  destruct (_ && _); [|eauto]. cbn in H. destruct (IH (rhs_rbp (snd o)) e None rest ltac:(lia)) as (r & rest' & -> & L).
  destruct (IH rbp (infix_expr lhs o r) (next_bp (snd o)) rest' ltac:(lia)) as (r2 & rest2 & -> & L2).
  exists r2, rest2. cbn. split; [reflexivity|lia].
Qed.
Lemma pratt_group_total e ops : pratt_group e ops <> None.
Proof.
  unfold pratt_group. destruct (pratt_total (S (length ops)) 0 e None ops ltac:(lia)) as (r & rest & -> & _). discriminate.
Qed.

(** What the parser knows about the tree built so far. *)
Definition nbp_of (t : tree) : option nat := match t with Leaf _ => None | Node _ o _ => next_bp (bin o) end.
Definition opsof (l : list (oper * xexpr)) : list binop := map (fun p => bin (fst p)) l.
Definition tops (t : tree) : list binop := opsof (tail t).
Definition strict (t : tree) : Prop := match root bin t with Some o => is_neither o = true | None => False end.
Fixpoint grouped' (t : tree) : Prop :=
  match t with
  | Leaf _ => True
  | Node l o r => grouped' l /\ grouped' r /\
      match root bin l with Some o' => if is_neither o' then precedence (bin o) < precedence o' else precedence (bin o) <= precedence o' | None => True end /\
      root_ge bin (S (precedence (bin o))) r
  end.
Lemma grouped'_grouped t : grouped' t -> grouped bin t.
Proof.
  induction t as [a|l IHl o r IHr]; cbn; [auto|]. intros (Hl & Hr & H1 & H2). repeat split; auto.
  unfold root_ge. destruct (root bin l) as [o'|]; [|exact I]. destruct (is_neither o'); lia.
Qed.

(** Once more, what remains after the parser stopped: everything, or the chain is at fault. *)
Definition stuck (rbp : nat) (t : tree) (rest : list (oper * xexpr)) : Prop :=
  match rest with
  | [] => True
  | (o, _) :: _ => lbp (bin o) <= rbp \/
      exists a o1 m, tops t = a ++ o1 :: m /\ comparison o1 /\ precedence o1 = precedence (bin o) /\
        forall x, In x m -> precedence o1 <= precedence x
  end.
Lemma tail_app_ops (t : tree) o (r : tree) : tops (Node t o r) = tops t ++ bin o :: tops r.
Proof. unfold tops, opsof. cbn [tail]. now rewrite map_app. Qed.
Lemma grouped'_ge t : grouped' t -> forall o, In o (tops t) -> match root bin t with Some o' => precedence o' <= precedence o | None => False end.
Proof.
  induction t as [a|l IHl o r IHr]; [cbn; tauto|]. intros (Hl & Hr & H1 & H2) x Hx. rewrite tail_app_ops in Hx. cbn [root].
  apply in_app_or in Hx. destruct Hx as [Hx|[<-|Hx]]; [| lia |].
  - specialize (IHl Hl x Hx). destruct (root bin l) as [o'|]; [|tauto]. destruct (is_neither o'); lia.
  - specialize (IHr Hr x Hx). unfold root_ge in H2. destruct (root bin r) as [o'|]; [lia|tauto].
Qed.
Lemma pratt_tree n : forall rbp tl ops r rest,
  pratt n rbp (tree_expr tl) (nbp_of tl) ops = Some (r, rest) -> grouped' tl ->
  (match root bin tl with Some o => rbp < lbp o | None => True end) ->
  (* nothing that binds tighter than the last operator was left over by its right operand *)
  (match root bin tl, ops with
   | Some o, (o', _) :: _ => lbp (bin o') <= lbp o \/ stuck 0 tl ops
   | _, _ => True
   end) ->
  exists t, r = tree_expr t /\ grouped' t /\ head t = head tl /\ tail tl ++ ops = tail t ++ rest /\
    match root bin t with Some o => rbp < lbp o | None => True end /\ stuck rbp t rest.
Proof.
  induction n as [|n IH]; intros rbp tl ops r rest E G Rt St; [discriminate|]. cbn [pratt] in E.
  destruct ops as [|[o e] ops]. { injection E as <- <-. exists tl. cbn [stuck]. tauto. }
  destruct (Nat.ltb rbp (lbp (snd o)) && below (lbp (snd o)) (nbp_of tl)) eqn:B.
  - apply andb_true_iff in B. destruct B as [B1 B2]. apply Nat.ltb_lt in B1.
    destruct (pratt n (rhs_rbp (snd o)) e None ops) as [[rhs ops']|] eqn:E1; [|discriminate].
    destruct (IH (rhs_rbp (bin o)) (Leaf e) ops rhs ops' E1 I I I) as (tr & -> & Gr & Hh & Ht & Rr & Sr).
    change (infix_expr (tree_expr tl) o (tree_expr tr)) with (tree_expr (Node tl o tr)) in E.
    assert (Gn : grouped' (Node tl o tr)).
    { cbn [grouped']. repeat split; auto.
      - destruct tl as [a|l o' r']; [exact I|]. cbn [root nbp_of below next_bp] in *. apply Nat.ltb_lt in B2. unfold lbp in B2.
        destruct (is_neither (bin o')); lia.
      - unfold root_ge. destruct (root bin tr) as [o'|]; [|exact I]. unfold rhs_rbp, lbp in *. destruct (is_neither (snd o)); lia. }
    assert (Sn : match ops' with [] => True | (o', _) :: _ => lbp (bin o') <= lbp (bin o) \/ stuck 0 (Node tl o tr) ops' end).
    { destruct ops' as [|[o' e'] ops']; [exact I|]. destruct Sr as [Sr|(a & o1 & m & Ea & C & P & M)].
      - left. unfold rhs_rbp, lbp in *. destruct (is_neither (snd o)); lia.
      - right. right. exists (tops tl ++ bin o :: a), o1, m. rewrite tail_app_ops, Ea, <- app_assoc. auto. }
    destruct (IH rbp (Node tl o tr) ops' r rest E Gn B1) as (t & -> & Gt & Hh' & Ht' & Rt' & St').
    { cbn [root]. destruct ops' as [|[]]; exact Sn. }
    exists t. repeat split; auto. cbn [tail head] in *. rewrite <- Ht', <- app_assoc, Hh. cbn [app]. now rewrite <- Ht.
  - injection E as <- <-. exists tl. repeat split; auto. apply andb_false_iff in B. destruct B as [B|B].
    { apply Nat.ltb_ge in B. now left. }
    destruct tl as [a|l o' r']; [discriminate|]. cbn [root nbp_of next_bp below] in *. apply Nat.ltb_ge in B.
    destruct St as [St|[St|St]]; [|pose proof (lbp_ge (bin o)); lia|right; exact St].
    right. destruct (is_neither (bin o')) eqn:En; [|lia].
    exists (tops l), (bin o'), (tops r'). split; [apply tail_app_ops|]. split; [now apply comparison_neither|].
    split; [unfold lbp in *; lia|]. intros x Hx. destruct G as (_ & Gr & _ & Gge).
    apply (grouped'_ge r' Gr) in Hx. unfold root_ge in Gge. destruct (root bin r'); [lia|tauto].
Qed.
Lemma not_chained t : grouped' t -> ~ chained (tops t).
Proof.
  induction t as [a|l IHl o r IHr]; intros G.
  { intros (x & o1 & m & o2 & z & E & _). destruct x; discriminate. }
  intros (x & o1 & m & o2 & z & E & C & P & Mn). rewrite tail_app_ops in E.
  pose proof G as (Gl & Gr & Hl & Hr).
  assert (Ge : forall y, In y (tops r) -> precedence (bin o) < precedence y).
  { intros y Hy. apply (grouped'_ge r Gr) in Hy. unfold root_ge in Hr. destruct (root bin r); [lia|tauto]. }
  assert (Gle : forall y, In y (tops l) -> precedence (bin o) <= precedence y /\ (is_neither y = true -> precedence (bin o) < precedence y)).
  { intros y Hy. apply (grouped'_ge l Gl) in Hy. destruct (root bin l) as [o'|]; [|tauto]. destruct (is_neither o') eqn:En; [lia|].
    split; [lia|]. intros Hn. destruct (Nat.eq_dec (precedence o') (precedence y)) as [Ep|Ep]; [|lia].
    apply prec_neither in Ep. congruence. }
  apply comparison_neither in C.
  destruct (Nat.lt_trichotomy (length x) (length (tops l))) as [L|[L|L]].
  - (* o1 in l *)
    assert (In o1 (tops l)) as I1.
    { assert (nth_error (tops l ++ bin o :: tops r) (length x) = Some o1).
      { rewrite E, nth_error_app2, Nat.sub_diag by lia. reflexivity. }
      rewrite nth_error_app1 in H by lia. eapply nth_error_In; eauto. }
    destruct (Nat.lt_trichotomy (length x + 1 + length m) (length (tops l))) as [L2|[L2|L2]].
    + (* both in l *)
      apply (IHl Gl). exists x, o1, m, o2, (firstn (length (tops l) - (length x + 1 + length m + 1)) z).
      split; [|split; [now apply comparison_neither|auto]].
      assert (F := f_equal (firstn (length (tops l))) E).
      rewrite firstn_app, Nat.sub_diag, firstn_all, firstn_O, app_nil_r in F. remember (length (tops l)) as k. rewrite F.
      replace (x ++ o1 :: m ++ o2 :: z) with ((x ++ o1 :: m ++ [o2]) ++ z) by (rewrite <- app_assoc; cbn; now rewrite <- app_assoc).
      rewrite firstn_app, firstn_all2 by (rewrite app_length; cbn; rewrite app_length; cbn; lia).
      rewrite <- app_assoc. cbn. rewrite <- app_assoc. cbn. do 5 f_equal. rewrite app_length. cbn. rewrite app_length. cbn. lia.
    + (* o2 is the root *)
      assert (bin o = o2).
      { assert (nth_error (tops l ++ bin o :: tops r) (length (tops l)) = Some (bin o)) by (rewrite nth_error_app2, Nat.sub_diag by lia; reflexivity).
        rewrite E, <- L2 in H. replace (x ++ o1 :: m ++ o2 :: z) with ((x ++ o1 :: m) ++ o2 :: z) in H by (now rewrite <- app_assoc).
        rewrite nth_error_app2 in H by (rewrite app_length; cbn; lia). rewrite app_length in H. cbn [length] in H.
        replace (length x + 1 + length m - (length x + S (length m))) with 0 in H by lia. now injection H. }
      destruct (Gle o1 I1) as [_ Hs]. specialize (Hs C). subst o2. lia.
    + (* o2 in r, the root between *)
      assert (In (bin o) m).
      { assert (nth_error (tops l ++ bin o :: tops r) (length (tops l)) = Some (bin o)) by (rewrite nth_error_app2, Nat.sub_diag by lia; reflexivity).
        rewrite E, nth_error_app2 in H by lia. replace (length (tops l) - length x) with (S (length (tops l) - length x - 1)) in H by lia. cbn in H.
        rewrite nth_error_app1 in H by lia. eapply nth_error_In; eauto. }
      specialize (Mn _ H). destruct (Gle o1 I1) as [_ Hs]. specialize (Hs C). lia.
  - (* o1 is the root *)
    assert (E2 : bin o :: tops r = o1 :: m ++ o2 :: z).
    { assert (F := f_equal (skipn (length x)) E). rewrite (skipn_app _ x), skipn_all, Nat.sub_diag in F. rewrite L, skipn_app, skipn_all, Nat.sub_diag in F. exact F. }
    injection E2 as E3 E4. assert (In o2 (tops r)) by (rewrite E4; apply in_or_app; right; now left). specialize (Ge _ H). rewrite E3 in Ge. lia.
  - apply (IHr Gr). exists (skipn (S (length (tops l))) x), o1, m, o2, z. split; [|split; [now apply comparison_neither|auto]].
    assert (F := f_equal (skipn (S (length (tops l)))) E). rewrite !skipn_app in F.
    rewrite (skipn_all2 (tops l)) in F by lia. replace (S (length (tops l)) - length (tops l)) with 1 in F by lia. cbn [skipn app] in F.
    rewrite F. replace (S (length (tops l)) - length x) with 0 by lia. reflexivity.
Qed.
(** The specification of grouping. *)
Theorem pratt_group_spec e ops : exists t rest,
  pratt_group e ops = Some (tree_expr t) /\ grouped bin t /\ head t = e /\ ops = tail t ++ rest /\
  (rest = [] <-> ~ chained (opsof ops)).
Proof.
  unfold pratt_group. destruct (pratt_total (S (length ops)) 0 e None ops ltac:(lia)) as (r & rest & E & _). rewrite E.
  destruct (pratt_tree _ 0 (Leaf e) ops r rest E I I I) as (t & -> & G & H & T & _ & S). cbn in T, H.
  exists t, rest. repeat split; auto using grouped'_grouped.
  - intros ->. rewrite T, app_nil_r. now apply not_chained.
  - intros N. destruct rest as [|[o e'] rest]; [reflexivity|]. exfalso. apply N. destruct S as [S|(a & o1 & m & Ea & C & P & Mn)].
    { pose proof (lbp_ge (bin o)). lia. }
    exists a, o1, m, (bin o), (opsof rest). split; [|auto]. 
    transitivity (tops t ++ bin o :: opsof rest); [rewrite T; apply map_app|]. rewrite Ea. now rewrite <- app_assoc.
Qed.

(** Uniqueness of the grouping. *)
Section Unique.
  Context {A O : Type} (op : O -> binop).
  Notation T := (optree A O).
  Notation tp t := (map (fun p => op (fst p)) (tail t)).
  Lemma grouped_ge (t : T) : grouped op t -> forall o, In o (tp t) -> match root op t with Some o' => precedence o' <= precedence o | None => False end.
  Proof.
    induction t as [a|l IHl o r IHr]; [cbn; tauto|]. intros (H1 & H2 & Hl & Hr) x Hx. cbn [tail root] in *. rewrite map_app in Hx.
    apply in_app_or in Hx. destruct Hx as [Hx|[<-|Hx]]; [|cbn; lia|].
    - specialize (IHl Hl x Hx). unfold root_ge in H1. destruct (root op l); [lia|tauto].
    - specialize (IHr Hr x Hx). unfold root_ge in H2. destruct (root op r); [lia|tauto].
  Qed.
  Lemma grouped_unique (t1 t2 : T) : grouped op t1 -> grouped op t2 -> head t1 = head t2 -> tail t1 = tail t2 -> t1 = t2.
  Proof.
    revert t2. induction t1 as [a|l IHl o r IHr]; intros [a2|l2 o2 r2] G1 G2 Eh Et; cbn [head tail] in *.
    - now subst.
    - destruct (tail l2); discriminate.
    - destruct (tail l); discriminate.
    - destruct G1 as (A1 & B1 & Gl & Gr), G2 as (A2 & B2 & Gl2 & Gr2).
      assert (Gel : forall o' o (l r : T), grouped op l -> root_ge op (precedence (op o)) l -> In o' (tp l) -> precedence (op o) <= precedence o').
      { intros o' o0 l0 _ G R Hi. apply (grouped_ge l0 G) in Hi. unfold root_ge in R. destruct (root op l0); [lia|tauto]. }
      assert (Ger : forall o' o (r : T), grouped op r -> root_ge op (S (precedence (op o))) r -> In o' (tp r) -> precedence (op o) < precedence o').
      { intros o' o0 r0 G R Hi. apply (grouped_ge r0 G) in Hi. unfold root_ge in R. destruct (root op r0); [lia|tauto]. }
      assert (In1 : forall (x y : T) (o o2 : O) (h h2 : A) z z2 , length (tail x) < length (tail y) ->
        tail x ++ (o, h) :: z = tail y ++ (o2, h2) :: z2 -> In (o, h) (tail y) /\ In (o2, h2) z).
      { intros x y p p2 h h2 z z2 L E. split.
        - assert (N1 : nth_error (tail x ++ (p, h) :: z) (length (tail x)) = Some (p, h)) by (rewrite nth_error_app2, Nat.sub_diag by lia; reflexivity).
          rewrite E, nth_error_app1 in N1 by lia. eapply nth_error_In; eauto.
        - assert (N1 : nth_error (tail y ++ (p2, h2) :: z2) (length (tail y)) = Some (p2, h2)) by (rewrite nth_error_app2, Nat.sub_diag by lia; reflexivity).
          rewrite <- E, nth_error_app2 in N1 by lia. replace (length (tail y) - length (tail x)) with (S (length (tail y) - length (tail x) - 1)) in N1 by lia.
          cbn in N1. eapply nth_error_In; eauto. }
      assert (Im : forall p h (t : list (O * A)), In (p, h) t -> In (op p) (map (fun p => op (fst p)) t)).
      { intros p h t Hi. apply (in_map (fun p => op (fst p))) in Hi. exact Hi. }
      destruct (Nat.lt_trichotomy (length (tail l)) (length (tail l2))) as [L|[L|L]].
      + destruct (In1 _ _ _ _ _ _ _ _ L Et) as [I1 I2]. apply Im in I1. apply Im in I2.
        specialize (Gel _ o2 l2 l2 Gl2 A2 I1). specialize (Ger _ o r Gr B1 I2). lia.
      + assert (E1 : tail l = tail l2 /\ (o, head r) :: tail r = (o2, head r2) :: tail r2).
        { clear - Et L. revert L Et. generalize (tail l) as a, (tail l2) as b. induction a as [|x a IH]; intros [|y b] L E; cbn in *; try discriminate; auto.
          injection E as -> E. destruct (IH b ltac:(lia) E) as [-> ->]. auto. }
        destruct E1 as [E1 E2]. injection E2 as -> E3 E4. f_equal; [apply IHl; auto|apply IHr; auto].
      + symmetry in Et. destruct (In1 _ _ _ _ _ _ _ _ L Et) as [I1 I2]. apply Im in I1. apply Im in I2.
        specialize (Gel _ o l l Gl A1 I1). specialize (Ger _ o2 r2 Gr2 B2 I2). lia.
  Qed.
End Unique.

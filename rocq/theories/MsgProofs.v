(** * The texts of evaluation errors: proofs *)
From Coq Require Import NArith ZArith Arith Bool String List Lia.
From Verif Require Import Res Str Dec NumberModel PrimModel PrimProofs Ast EqSpec EvalModel EvalSpec EvalSem EvalIp.
From Verif Require Import ConvModel FmtModel FmtSpec FmtLayout ParseBase ParseModel Eat EatLeaf EatExpr FmtReadSpec FmtReadProofs FmtValueProofs FmtReadProps.
From Verif Require Import EatColl MsgModel MsgSpec.
Import ListNotations.
Open Scope N_scope.

(** ** Lists *)
Lemma span_eq (f : N -> bool) a : forall c r s, forallb f a = true -> forallb f c = true -> ends f r -> ends f s -> a ++ r = c ++ s -> a = c /\ r = s.
Proof.
  induction a as [|x a IH]; intros [|y c] r s Ha Hc Hr Hs E; cbn [app forallb] in *.
  - auto.
  - subst r. cbn in Hr. rewrite Hr in Hc. discriminate.
  - subst s. cbn in Hs. rewrite Hs in Ha. discriminate.
  - injection E as -> E. apply andb_true_iff in Ha, Hc. destruct (IH c r s) as [-> ->]; tauto.
Qed.
Definition not_tick (c : N) : bool := negb (c =? 96).
Lemma no_tick_all s : no_tick s -> forallb not_tick s = true.
Proof. unfold no_tick. intros H. apply forallb_forall. intros x Hx. unfold not_tick. destruct (N.eqb_spec x 96) as [-> |]; [contradiction|reflexivity]. Qed.
Lemma tick_eq a c r s : no_tick a -> no_tick c -> a ++ 96 :: r = c ++ 96 :: s -> a = c /\ r = s.
Proof.
  intros Ha Hc E. destruct (span_eq not_tick a c (96 :: r) (96 :: s)) as [-> E']; auto using no_tick_all; try reflexivity. now injection E' as ->.
Qed.
Lemma no_tick_app a c : no_tick a -> no_tick c -> no_tick (a ++ c).
Proof. unfold no_tick. intros H1 H2 H. apply in_app_or in H. tauto. Qed.
Ltac ticks := solve [unfold no_tick; cbn; intuition discriminate].
Lemma digits_no_tick n : no_tick (show_N n).
Proof.
  intros H. assert (D := show_N_digits n). rewrite forallb_forall in D. apply D in H. discriminate.
Qed.
Lemma show_N_eq n m r s : ends is_digit r -> ends is_digit s -> show_N n ++ r = show_N m ++ s -> n = m /\ r = s.
Proof.
  intros Hr Hs E. destruct (span_eq is_digit (show_N n) (show_N m) r s) as [E1 E2]; auto using show_N_digits.
  split; [|exact E2]. rewrite <- (digits_show n), <- (digits_show m). now rewrite E1.
Qed.

(** ** Parameter types *)
Fixpoint alts (t : ptype) : list ptype :=
  match t with
  | POneOf [] => [PAny]
  | POneOf ts => flat_map alts ts
  | t => [t]
  end.
Definition atom (t : ptype) : Prop := match t with POneOf _ => False | _ => True end.
Fixpoint psize (t : ptype) : nat :=
  match t with
  | PArray t | PObject t | PNullable t => S (psize t)
  | POneOf ts => S (list_sum (map psize ts))
  | _ => 1%nat
  end.
Lemma psize_in t ts : In t ts -> (psize t <= list_sum (map psize ts))%nat.
Proof. induction ts as [|x ts IH]; [intros []|]. unfold list_sum in *. intros [-> |H]; cbn; [lia|]. specialize (IH H). lia. Qed.
Lemma alts_one ts : ts <> [] -> alts (POneOf ts) = flat_map alts ts.
Proof. destruct ts; [congruence|reflexivity]. Qed.
Lemma psize_pos t : (1 <= psize t)%nat.
Proof. destruct t; cbn; lia. Qed.
Lemma alts_ok n : forall t, (psize t <= n)%nat -> Forall (fun a => atom a /\ (psize a <= psize t)%nat) (alts t).
Proof.
  induction n as [|n IH]; intros t H; [assert (P := psize_pos t); lia|].
  destruct t as [ | | | |t|t|ts|t]; try (constructor; [split; [exact I|cbn; lia]|constructor]).
  destruct ts as [|t ts]; [constructor; [split; [exact I|cbn; lia]|constructor]|].
  rewrite alts_one by discriminate. apply Forall_forall. intros a Ha. apply in_flat_map in Ha as (x & Hx & Ha).
  assert (S := psize_in x _ Hx). cbn [psize] in H. specialize (IH x ltac:(lia)). rewrite Forall_forall in IH. destruct (IH a Ha). split; [assumption|]. cbn [psize]. lia.
Qed.
Lemma type_alts n : forall t v, (psize t <= n)%nat -> has_type t v <-> Exists (fun a => has_type a v) (alts t).
Proof.
  induction n as [|n IH]; intros t v H; [assert (P := psize_pos t); lia|].
  assert (One : forall a, has_type a v <-> Exists (fun a => has_type a v) [a]).
  { intros a. split; [now constructor|]. intros E. inversion E as [? ? E1|? ? E1]; [exact E1|inversion E1]. }
  destruct t as [ | | | |t|t|ts|t]; try apply One.
  destruct ts as [|t ts]; [cbn [alts]; rewrite <- One; cbn; intuition|].
  rewrite alts_one by discriminate. cbn [has_type].
  assert (A : forall l, (list_sum (map psize l) <= n)%nat -> fold_right (fun t P => has_type t v \/ P) False l <-> Exists (fun a => has_type a v) (flat_map alts l)).
  { induction l as [|x l IHl]; cbn [map list_sum flat_map]; intros L; [cbn; split; [intros []|intros E; inversion E]|].
    change (list_sum (psize x :: map psize l)) with (psize x + list_sum (map psize l))%nat in L. cbn [fold_right]. rewrite Exists_app, (IH x v ltac:(lia)), IHl by lia. tauto. }
  cbn [psize] in H. rewrite (A (t :: ts)) by lia. split; [intros [F|F]; [discriminate|exact F]|now right].
Qed.

(** Texts of alternatives. *)
Definition sep (s : str) : Prop := s = lit ", " \/ s = lit " or ".
Inductive Alt : list ptype -> str -> Prop :=
| Alt_one a : atom a -> Alt [a] (ptype_str a)
| Alt_more a x l s : atom a -> sep x -> Alt l s -> Alt (a :: l) (ptype_str a ++ x ++ s).
Lemma Alt_app l s x l' s' : Alt l s -> sep x -> Alt l' s' -> Alt (l ++ l') (s ++ x ++ s').
Proof.
  induction 1; intros HX H'; cbn [app]; [now constructor|]. rewrite <- !app_assoc. constructor; auto.
Qed.
Lemma ptype_alt n : forall t, (psize t <= n)%nat -> Alt (alts t) (ptype_str t).
Proof.
  induction n as [|n IH]; intros t H; [assert (P := psize_pos t); lia|].
  destruct t as [ | | | |t|t|ts|t]; try (apply Alt_one; exact I).
  destruct ts as [|t [|t' ts]].
  - apply (Alt_one PAny). exact I.
  - cbn [alts flat_map ptype_str]. rewrite app_nil_r. apply IH. cbn in H. lia.
  - rewrite alts_one by discriminate. cbn [psize] in H. cbn [map] in H. change (list_sum (psize t :: psize t' :: map psize ts)) with (psize t + (psize t' + list_sum (map psize ts)))%nat in H.
    set (f := fun p : nat * str => (if Nat.eqb (fst p) (length (t :: t' :: ts) - 1) then lit " or " else if Nat.ltb 0 (fst p) then lit ", " else []) ++ snd p).
    change (ptype_str (POneOf (t :: t' :: ts))) with (ptype_str t ++ concat (map f (combine (seq 1 (length (t' :: ts))) (map ptype_str (t' :: ts))))).
    change (flat_map alts (t :: t' :: ts)) with (alts t ++ flat_map alts (t' :: ts)).
    assert (A : forall l i L s, (0 < i)%nat -> (list_sum (map psize l) <= n)%nat -> Alt L s -> Alt (L ++ flat_map alts l) (s ++ concat (map f (combine (seq i (length l)) (map ptype_str l))))).
    { induction l as [|x l IHl]; intros i L s Hi Hl HL; [cbn; now rewrite !app_nil_r|].
      change (list_sum (map psize (x :: l))) with (psize x + list_sum (map psize l))%nat in Hl.
      cbn [flat_map length seq map combine concat]. unfold f at 1. cbn [fst snd]. rewrite <- !app_assoc.
      rewrite (app_assoc L (alts x)).
      replace (s ++ (if Nat.eqb i _ then _ else _) ++ ptype_str x ++ _) with ((s ++ (if Nat.eqb i (length (t :: t' :: ts) - 1) then lit " or " else if Nat.ltb 0 i then lit ", " else []) ++ ptype_str x) ++ concat (map f (combine (seq (S i) (length l)) (map ptype_str l)))) by (now rewrite <- !app_assoc).
      apply IHl; [lia|lia|]. apply Alt_app; [exact HL| |apply IH; lia]. unfold sep. destruct (Nat.eqb _ _); [now right|]. destruct (Nat.ltb_spec 0 i); [now left|lia]. }
    apply A; [lia| |apply IH; lia]. cbn [map]. change (list_sum (psize t' :: map psize ts)) with (psize t' + list_sum (map psize ts))%nat. lia.
Qed.

(** What follows a type: nothing, a parenthesis or ", got". *)
Definition after_type (r : str) : Prop := match r with [] => True | c :: r => c = 41 \/ (c = 44 /\ match r with _ :: d :: _ => d <> 96 | _ => True end) end.
Definition same_type (a c : ptype) : Prop := forall v, has_type a v <-> has_type c v.
Lemma nth_error_nil' {A} i : nth_error (@nil A) i = None.
Proof. now destruct i. Qed.
Lemma atom_eq n : (forall t1 t2 r1 r2, (psize t1 <= n)%nat -> after_type r1 -> after_type r2 -> ptype_str t1 ++ r1 = ptype_str t2 ++ r2 -> same_type t1 t2 /\ r1 = r2) ->
  forall a c r s, (psize a <= S n)%nat -> atom a -> atom c -> ptype_str a ++ r = ptype_str c ++ s -> same_type a c /\ r = s.
Proof.
  intros IH a c r s Hs Ha Hc E.
  assert (Y : forall t t', (psize t <= n)%nat -> ptype_str t ++ lit ")`" ++ r = ptype_str t' ++ lit ")`" ++ s -> same_type t t' /\ r = s).
  { intros t t' Ht E'. destruct (IH t t' (lit ")`" ++ r) (lit ")`" ++ s)) as [H1 H2]; [lia|now left|now left|exact E'|]. split; [exact H1|]. now injection H2. }
  destruct a as [ | | | |a|a|ts|a], c as [ | | | |c|c|ts'|c]; try contradiction; cbn [ptype_str] in E; rewrite <- ?app_assoc in E; cbn in E;
    try discriminate; try (injection E as E; subst; split; [now intros v|reflexivity]); cbn [psize] in Hs.
  all: injection E as E; destruct (Y a c ltac:(lia) E) as [H ->]; split; [|reflexivity]; intros v; cbn [has_type].
  - split; intros (l & -> & L); exists l; (split; [reflexivity|]); intros x Hx; apply H; auto.
  - split; intros (l & -> & L); exists l; (split; [reflexivity|]); intros k x Hx; apply H; eauto.
  - rewrite (H v). tauto.
Qed.
Lemma alt_eq n : (forall t1 t2 r1 r2, (psize t1 <= n)%nat -> after_type r1 -> after_type r2 -> ptype_str t1 ++ r1 = ptype_str t2 ++ r2 -> same_type t1 t2 /\ r1 = r2) ->
  forall l s, Alt l s -> Forall (fun a => (psize a <= S n)%nat) l -> forall l' s' r r', Alt l' s' -> after_type r -> after_type r' -> s ++ r = s' ++ r' ->
  Forall2 same_type l l' /\ r = r'.
Proof.
  intros IH l s H. induction H as [a Ha|a x l s Ha Hx H IHl]; intros HF l' s' r r' H' Hr Hr' E; inversion HF as [|? ? F1 F2]; subst.
  - destruct H' as [c Hc|c y l' s' Hc Hy H'].
    + destruct (atom_eq n IH a c r r') as [H1 ->]; auto.
    + rewrite <- !app_assoc in E. destruct (atom_eq n IH a c _ _ F1 Ha Hc E) as [_ E2]. exfalso. subst r.
      assert (HT : exists z, s' = 96 :: z) by (clear -H'; destruct H' as [a Ha|a z l s Ha]; destruct a; try contradiction; eexists; reflexivity). destruct HT as (z & ->).
      destruct Hy as [-> | ->]; cbn in Hr; [destruct Hr as [?|[_ ?]]; [discriminate|congruence]|destruct Hr as [?|[? _]]; discriminate].
  - destruct H' as [c Hc|c y l' s' Hc Hy H'].
    + rewrite <- !app_assoc in E. destruct (atom_eq n IH a c _ _ F1 Ha Hc E) as [_ E2]. exfalso. subst r'.
      assert (HT : exists z, s = 96 :: z) by (clear -H; destruct H as [a Ha|a z l s Ha]; destruct a; try contradiction; eexists; reflexivity). destruct HT as (z & ->).
      destruct Hx as [-> | ->]; cbn in Hr'; [destruct Hr' as [?|[_ ?]]; [discriminate|congruence]|destruct Hr' as [?|[? _]]; discriminate].
    + rewrite <- !app_assoc in E. destruct (atom_eq n IH a c _ _ F1 Ha Hc E) as [E1 E2].
      assert (E3 : s ++ r = s' ++ r') by (destruct Hx as [-> | ->], Hy as [-> | ->]; cbn in E2; try discriminate; now injection E2).
      destruct (IHl F2 l' s' r r' H' Hr Hr' E3) as [H1 ->]. split; [now constructor|reflexivity].
Qed.
Lemma ptype_eq n : forall t1 t2 r1 r2, (psize t1 <= n)%nat -> after_type r1 -> after_type r2 -> ptype_str t1 ++ r1 = ptype_str t2 ++ r2 -> same_type t1 t2 /\ r1 = r2.
Proof.
  induction n as [|n IH]; intros t1 t2 r1 r2 H H1 H2 E; [assert (P := psize_pos t1); lia|].
  destruct (alt_eq n IH (alts t1) (ptype_str t1) (ptype_alt _ t1 (Nat.le_refl _))) with (l' := alts t2) (s' := ptype_str t2) (r := r1) (r' := r2) as [A ->]; auto.
  - eapply Forall_impl; [|apply (alts_ok _ t1 (Nat.le_refl _))]. cbn. intros a [_ Ha]. lia.
  - apply (ptype_alt _ t2 (Nat.le_refl _)).
  - split; [|reflexivity]. intros v. rewrite (type_alts _ t1 v (Nat.le_refl _)), (type_alts _ t2 v (Nat.le_refl _)).
    clear -A. induction A as [|a c l l' H _ IH]; [tauto|]. rewrite !Exists_cons, (H v), IH. tauto.
Qed.

(** ** Calls *)
Section Call.
  Context (u : unicode) (sf : f64 -> str).
  Definition forget (c : callerr) (args : list value) (fd : funcdef) : str :=
    match c with
    | CArity e g => arity_msg e g
    | CPos pos => positional_msg u sf pos (nth pos (fd_params fd) PAny) (nth pos args VNull)
    | CVar pos => variadic_msg u sf pos (match fd_variadic fd with Some p => p | None => PAny end) (nth pos args VNull)
    | CUser m => m
    end.
  Lemma check_positional_spec ps : forall args k,
    (length ps <= length args)%nat ->
    match check_positional u sf k args ps with
    | Some m => exists pos p v, nth_error args pos = Some v /\ nth_error ps pos = Some p /\ satisfied p v = false /\ m = positional_msg u sf (k + pos) p v /\
        (forall i q w, (i < pos)%nat -> nth_error args i = Some w -> nth_error ps i = Some q -> satisfied q w = true) /\ bad_positional k args ps = Some (k + pos)%nat
    | None => (forall i q w, nth_error args i = Some w -> nth_error ps i = Some q -> satisfied q w = true) /\ bad_positional k args ps = None
    end.
  Proof.
    induction ps as [|p ps IH]; intros [|a args] k L; cbn [check_positional bad_positional].
    - split; [|reflexivity]. intros i q w _ H. rewrite nth_error_nil' in H. discriminate.
    - split; [|reflexivity]. intros i q w _ H. rewrite nth_error_nil' in H. discriminate.
    - cbn in L. lia.
    - destruct (satisfied p a) eqn:S.
      + specialize (IH args (Datatypes.S k) ltac:(cbn in L; lia)). destruct (check_positional u sf (Datatypes.S k) args ps) as [m|].
        * destruct IH as (pos & q & v & H1 & H2 & H3 & H4 & H5 & H6). exists (Datatypes.S pos), q, v. replace (k + Datatypes.S pos)%nat with (Datatypes.S k + pos)%nat by lia.
          repeat (split; [assumption|]). split; [|exact H6]. intros [|i] q' w Hi Hw Hq; cbn in Hw, Hq; [congruence|]. eapply H5; [|eassumption|eassumption]. lia.
        * destruct IH as [H1 H2]. split; [|exact H2]. intros [|i] q w Hw Hq; cbn in Hw, Hq; [congruence|]. eapply H1; eassumption.
      + exists 0%nat, p, a. rewrite Nat.add_0_r. repeat (split; [try reflexivity; try assumption|]); [|reflexivity]. intros i q w Hi. lia.
  Qed.
  Lemma check_variadic_spec n p : forall args k,
    match check_variadic u sf n k p args with
    | Some m => exists pos v, nth_error args pos = Some v /\ satisfied p v = false /\ m = variadic_msg u sf (n + k + pos) p v /\
        (forall i w, (i < pos)%nat -> nth_error args i = Some w -> satisfied p w = true) /\ bad_variadic (n + k) p args = Some (n + k + pos)%nat
    | None => (forall i w, nth_error args i = Some w -> satisfied p w = true) /\ bad_variadic (n + k) p args = None
    end.
  Proof.
    induction args as [|a args IH]; intros k; cbn [check_variadic bad_variadic].
    - split; [|reflexivity]. intros i w H. rewrite nth_error_nil' in H. discriminate.
    - destruct (satisfied p a) eqn:S.
      + specialize (IH (Datatypes.S k)). rewrite <- plus_n_Sm in IH. destruct (check_variadic u sf n (Datatypes.S k) p args) as [m|].
        * destruct IH as (pos & v & H1 & H2 & H3 & H4 & H5). exists (Datatypes.S pos), v. replace (n + k + Datatypes.S pos)%nat with (Datatypes.S (n + k) + pos)%nat by lia.
          repeat (split; [assumption|]). split; [|exact H5]. intros [|i] w Hi Hw; cbn in Hw; [congruence|]. eapply H4; [|eassumption]. lia.
        * destruct IH as [H1 H2]. split; [|exact H2]. intros [|i] w Hw; cbn in Hw; [congruence|]. eapply H1; eassumption.
      + exists 0%nat, a. rewrite Nat.add_0_r. repeat (split; [try reflexivity; try assumption|]); [|reflexivity]. intros i w Hi. lia.
  Qed.
  Lemma nth_firstn {A} (l : list A) n i : nth_error (firstn n l) i = if Nat.ltb i n then nth_error l i else None.
  Proof.
    revert l i. induction n as [|n IH]; intros l i; [cbn; now rewrite nth_error_nil'|]. destruct l as [|x l]; [cbn [firstn]; rewrite nth_error_nil'; now destruct (Nat.ltb _ _)|].
    destruct i as [|i]; [reflexivity|]. cbn [firstn nth_error]. rewrite IH. reflexivity.
  Qed.
  Lemma nth_skipn {A} (l : list A) n i : nth_error (skipn n l) i = nth_error l (n + i).
  Proof. revert l. induction n as [|n IH]; intros l; [reflexivity|]. destruct l as [|x l]; [cbn [skipn]; now rewrite !nth_error_nil'|]. apply IH. Qed.
  Lemma nth_repeat {A} (x y : A) n i : nth_error (repeat x n) i = Some y -> y = x.
  Proof. intros H. apply nth_error_In in H. now apply repeat_spec in H. Qed.
  Lemma repeat_nth {A} (x : A) n i : (i < n)%nat -> nth_error (repeat x n) i = Some x.
  Proof. revert i. induction n as [|n IH]; intros [|i] H; cbn; try lia; [reflexivity|]. apply IH. lia. Qed.

  Lemma call_same fd args : call_msg u sf fd args = match call_func fd args with inl v => inl v | inr c => inr (forget c args fd) end.
  Proof.
    unfold call_msg, call_func. set (n := length (fd_params fd)). destruct (_ || _) eqn:A; [reflexivity|].
    apply orb_false_iff in A as [A _]. apply Nat.ltb_ge in A.
    assert (P := check_positional_spec (fd_params fd) (firstn n args) 0). rewrite firstn_length in P. specialize (P ltac:(lia)).
    destruct (check_positional _ _ _ _ _) as [m|].
    - destruct P as (pos & p & v & H1 & H2 & H3 & -> & H5 & ->). cbn [Nat.add forget]. rewrite (nth_error_nth _ _ _ H2).
      rewrite nth_firstn in H1. destruct (Nat.ltb pos n); [|discriminate]. now rewrite (nth_error_nth _ _ _ H1).
    - destruct P as [_ ->]. destruct (fd_variadic fd) as [p|] eqn:V.
      + assert (Q := check_variadic_spec n p (skipn n args) 0). rewrite Nat.add_0_r in Q. destruct (check_variadic _ _ _ _ _ _) as [m|].
        * destruct Q as (pos & v & H1 & H2 & -> & H4 & ->). cbn [forget]. rewrite V. rewrite nth_skipn in H1. now rewrite (nth_error_nth _ _ _ H1).
        * destruct Q as [_ ->]. destruct (fd_func fd _); reflexivity.
      + destruct (fd_func fd _); reflexivity.
  Qed.

  Lemma call_cases fd args : well_declared fd ->
    (~ arity_ok fd args /\ call_msg u sf fd args = inr (arity_msg (length (fd_params fd)) (length args))) \/
    (arity_ok fd args /\ exists pos p v, first_misfit fd args pos p v /\
       call_msg u sf fd args = inr (if Nat.ltb pos (length (fd_params fd)) then positional_msg u sf pos p v else variadic_msg u sf pos p v)) \/
    (EvalSpec.fits fd args /\ call_msg u sf fd args = fd_func fd (FArgs args (length (fd_params fd)))).
  Proof.
    intros [WP WV]. unfold call_msg. set (n := length (fd_params fd)). destruct (_ || _) eqn:A.
    - left. split; [|reflexivity]. intros [L1 L2]. apply orb_true_iff in A as [A|A]; [apply Nat.ltb_lt in A; lia|].
      apply andb_true_iff in A as [A1 A2]. apply Nat.ltb_lt in A2. destruct (fd_variadic fd); [discriminate|]. specialize (L2 eq_refl). lia.
    - right. apply orb_false_iff in A as [A A2]. apply Nat.ltb_ge in A.
      assert (AR : arity_ok fd args).
      { split; [exact A|]. intros E. rewrite E in A2. cbn in A2. apply Nat.ltb_ge in A2. lia. }
      assert (ST : forall p v, In p (fd_params fd) \/ fd_variadic fd = Some p -> satisfied p v = true <-> has_type p v).
      { intros p v [H|H]; apply satisfied_has_type; [rewrite Forall_forall in WP; auto|now rewrite H in WV]. }
      assert (SF : forall p v, In p (fd_params fd) \/ fd_variadic fd = Some p -> satisfied p v = false -> ~ has_type p v).
      { intros p v H F T. apply ST in T; [congruence|exact H]. }
      assert (P := check_positional_spec (fd_params fd) (firstn n args) 0). rewrite firstn_length in P. specialize (P ltac:(lia)).
      destruct (check_positional _ _ _ _ _) as [m|].
      + left. split; [exact AR|]. destruct P as (pos & p & v & H1 & H2 & H3 & -> & H5 & _). cbn [Nat.add]. exists pos, p, v.
        assert (Hp : (pos < n)%nat) by (apply nth_error_Some; congruence). split.
        * rewrite nth_firstn in H1. destruct (Nat.ltb_spec pos n); [|lia]. split; [exact H1|]. unfold arg_types. rewrite nth_error_app1 by exact Hp. split; [exact H2|].
          split; [apply SF; [left; eapply nth_error_In; exact H2|exact H3]|]. intros i q w Hi Hw Hq. rewrite nth_error_app1 in Hq by (fold n; lia).
          apply ST; [left; eapply nth_error_In; exact Hq|]. apply (H5 i q w Hi); [|exact Hq]. rewrite nth_firstn. destruct (Nat.ltb_spec i n); [exact Hw|lia].
        * destruct (Nat.ltb_spec pos n); [reflexivity|lia].
      + destruct P as [P _].
        assert (PT : forall i q w, (i < n)%nat -> nth_error args i = Some w -> nth_error (fd_params fd) i = Some q -> has_type q w).
        { intros i q w Hi Hw Hq. apply ST; [left; eapply nth_error_In; exact Hq|]. apply (P i q w); [|exact Hq]. rewrite nth_firstn. destruct (Nat.ltb_spec i n); [exact Hw|lia]. }
        assert (FP : Forall2 has_type (fd_params fd) (firstn n args)).
        { assert (L : length (firstn n args) = n) by (rewrite firstn_length; lia). clear -P L ST. subst n.
          assert (ST' : forall p v, In p (fd_params fd) -> satisfied p v = true -> has_type p v) by (intros; apply ST; auto). clear ST. revert L P ST'. generalize (firstn (length (fd_params fd)) args) as vs. generalize (fd_params fd) as ps.
          induction ps as [|p ps IH]; intros [|v vs] L P ST; try discriminate; constructor.
          - apply ST; [now left|]. now apply (P 0%nat).
          - apply IH; [now injection L|intros i q w Hw Hq; apply (P (S i)); assumption|]. intros q w Hq. apply ST. now right. }
        destruct (fd_variadic fd) as [p|] eqn:V.
        * assert (Q := check_variadic_spec n p (skipn n args) 0). rewrite Nat.add_0_r in Q. destruct (check_variadic _ _ _ _ _ _) as [m|].
          -- left. split; [exact AR|]. destruct Q as (pos & v & H1 & H2 & -> & H4 & _). exists (n + pos)%nat, p, v. rewrite nth_skipn in H1.
             assert (Hl : (n + pos < length args)%nat) by (apply nth_error_Some; congruence). split.
             ++ split; [exact H1|]. unfold arg_types. rewrite V, nth_error_app2 by (fold n; lia). fold n. split; [apply repeat_nth; lia|].
                split; [apply SF; [now right|exact H2]|]. intros i q w Hi Hw Hq. destruct (Nat.lt_ge_cases i n) as [Hn|Hn].
                ** rewrite nth_error_app1 in Hq by exact Hn. now apply (PT i q w).
                ** rewrite nth_error_app2 in Hq by exact Hn. apply nth_repeat in Hq. subst q. apply ST; [now right|]. apply (H4 (i - n)%nat); [lia|]. rewrite nth_skipn. now replace (n + (i - n))%nat with i by lia.
             ++ destruct (Nat.ltb_spec (n + pos) n); [lia|reflexivity].
          -- right. split; [|reflexivity]. destruct Q as [Q _]. exists (firstn n args), (skipn n args). split; [symmetry; apply firstn_skipn|]. split; [exact FP|]. rewrite V.
             apply Forall_forall. intros v Hv. apply ST; [now right|]. apply In_nth_error in Hv as [i Hi]. now apply (Q i).
        * right. split; [|reflexivity]. exists args, []. split; [now rewrite app_nil_r|]. rewrite V. split; [|reflexivity]. destruct AR as [_ AR]. specialize (AR V). fold n in AR. rewrite firstn_all2 in FP by lia. exact FP.
  Qed.
End Call.

(** ** Expressions and values before a grave accent *)
Section Prefix.
  Context (u : unicode) (b : build) (pf : str -> f64) (sf : f64 -> str) (HU : ascii_exact u).
  Lemma expr_str_show e : expr_str u sf e = text u sf default_cfg (JExpr e).
  Proof. unfold expr_str. change (fm_expr u sf default_cfg e) with (fm_job u sf default_cfg (JExpr e)). now rewrite fresh_text. Qed.
  Lemma value_str_show v : value_str u sf v = text u sf default_cfg (JValue v).
  Proof. unfold value_str. change (fm_value u sf default_cfg v) with (fm_job u sf default_cfg (JValue v)). now rewrite fresh_text. Qed.
  Lemma ctx_tick w nl r : ctx u stop w nl (96 :: r).
  Proof.
    apply (ctx_const u stop w nl _ (96 :: r)).
    - apply (not_cont u HU); reflexivity.
    - exact I.
    - intros m. now apply skip_stay.
    - now destruct r.
    - now destruct r.
  Qed.
  Lemma prefix_read e1 e2 k n r1 r2 : readable u b pf sf default_cfg e1 -> readable u b pf sf default_cfg e2 ->
    show u sf default_cfg k n e1 ++ 96 :: r1 = show u sf default_cfg k n e2 ++ 96 :: r2 -> as_read u default_cfg e1 = as_read u default_cfg e2 /\ r1 = r2.
  Proof.
    intros H1 H2 E. set (inp := show u sf default_cfg k n e1 ++ 96 :: r1).
    assert (P1 := @expr_read inp u b pf sf default_cfg HU eq_refl e1 k n false (96 :: r1) H1 (ctx_tick _ _ _)).
    assert (P2 := @expr_read inp u b pf sf default_cfg HU eq_refl e2 k n false (96 :: r2) H2 (ctx_tick _ _ _)).
    pose (m := Nat.max (length (show u sf default_cfg k n e1)) (length (show u sf default_cfg k n e2))).
    specialize (P1 m ltac:(unfold m; lia)). specialize (P2 m ltac:(unfold m; lia)).
    specialize (P1 0%N). specialize (P2 0%N). unfold inp in P1, P2. rewrite <- E in P2.
    destruct P1 as (a1 & E1 & Q1); [apply tail_0|]. destruct P2 as (a2 & E2 & Q2); [apply tail_0|].
    rewrite E1 in E2. injection E2 as Ea _ Er. subst a2. split; [|exact Er]. destruct Q1 as [_ Q1], Q2 as [_ Q2]. congruence.
  Qed.
  Lemma expr_eq e1 e2 r1 r2 : expr_ok u b pf sf e1 -> expr_ok u b pf sf e2 -> expr_str u sf e1 ++ 96 :: r1 = expr_str u sf e2 ++ 96 :: r2 -> e1 = e2 /\ r1 = r2.
  Proof.
    intros [H1 S1] [H2 S2] E. rewrite !expr_str_show in E. cbn [text] in E. apply prefix_read in E; auto. rewrite !as_read_same in E by auto. exact E.
  Qed.
  Lemma value_eq v1 v2 r1 r2 : value_ok u b pf sf v1 -> value_ok u b pf sf v2 -> value_str u sf v1 ++ 96 :: r1 = value_str u sf v2 ++ 96 :: r2 -> v1 = v2 /\ r1 = r2.
  Proof.
    intros H1 H2 E. rewrite !value_str_show in E. cbn [text] in E. rewrite !(vread_show u b pf sf default_cfg) in E by assumption.
    apply prefix_read in E; auto using vread_readable. destruct E as [E ->]. split; [|reflexivity].
    assert (V1 := vread_eval u b pf sf default_cfg (fun _ _ => Ok VNull) (fun _ => []) [] v1 H1).
    assert (V2 := vread_eval u b pf sf default_cfg (fun _ _ => Ok VNull) (fun _ => []) [] v2 H2). congruence.
  Qed.
End Prefix.

(** ** Errors *)
Section Texts.
  Context (u : unicode) (b : build) (pf : str -> f64) (sf : f64 -> str) (HU : ascii_exact u).
  Notation name_ok := (name_ok u).
  Notation func_ok := (func_ok u).
  Notation value_ok := (value_ok u b pf sf).
  Notation msg_ok := (msg_ok u b pf sf).
  Notation error_ok := (error_ok u b pf sf).

  Definition idchar (c : N) : bool := is_id_start u c || is_id_continue u c.
  Lemma name_chars x : name_ok x -> forallb idchar x = true.
  Proof.
    unfold MsgSpec.name_ok. destruct x as [|c x]; [discriminate|]. cbn [is_ident forallb]. intros H. apply andb_true_iff in H as [H1 H2]. unfold idchar at 1. rewrite H1.
    cbn [orb andb]. apply forallb_forall. rewrite forallb_forall in H2. intros y Hy. unfold idchar. rewrite (H2 y Hy). apply orb_true_r.
  Qed.
  Lemma not_id c : c < 128 -> is_ascii_letter c || is_digit c || (c =? 95) || (c =? 45) = false -> idchar c = false.
  Proof.
    intros H1 H2. unfold idchar, is_id_start, is_id_continue. destruct (HU c H1) as [-> ->]. rewrite !orb_false_iff in H2. destruct H2 as [[[A B] C] D]. now rewrite A, B, C, D.
  Qed.
  Lemma name_no_tick x : name_ok x -> no_tick x.
  Proof. intros H T. apply name_chars in H. rewrite forallb_forall in H. apply H in T. rewrite not_id in T by reflexivity. discriminate. Qed.
  Lemma fname_no_tick f : func_ok f -> no_tick (fname_str f).
  Proof.
    intros [H1 H2]. apply no_tick_app; [|now apply name_no_tick]. intros T. apply in_flat_map in T as (x & Hx & T). rewrite Forall_forall in H1. apply in_app_or in T as [T|T]; [now apply (name_no_tick x (H1 x Hx))|]. revert T. ticks.
  Qed.
  Lemma fname_inj f g : func_ok f -> func_ok g -> fname_str f = fname_str g -> f = g.
  Proof.
    destruct f as [ns x], g as [ms y]. unfold fname_str. intros [H1 H2] [H3 H4] E. cbn [fn_namespace fn_name] in *.
    assert (C : forall s, ends idchar (lit "::" ++ s)) by (intros s; apply not_id; reflexivity).
    revert ms H3 E. induction H1 as [|n ns Hn H1 IH]; intros [|m ms] H3 E; cbn [flat_map app] in E; rewrite <- ?app_assoc in E.
    - now subst.
    - apply Forall_cons_iff in H3 as [M1 M2]. exfalso. destruct (span_eq idchar x m [] (lit "::" ++ flat_map (fun x => x ++ lit "::") ms ++ y)) as [_ F]; auto using name_chars; [exact I|now rewrite app_nil_r|discriminate].
    - exfalso. destruct (span_eq idchar n y (lit "::" ++ flat_map (fun x => x ++ lit "::") ns ++ x) []) as [_ F]; auto using name_chars; [exact I|now rewrite app_nil_r|discriminate].
    - apply Forall_cons_iff in H3 as [M1 M2]. destruct (span_eq idchar n m _ _ (name_chars _ Hn) (name_chars _ M1) (C _) (C _) E) as [-> F].
      injection F as F. apply IH in F; [|exact M2]. now injection F as -> ->.
  Qed.

  (** What follows the text of a kind. *)
  Definition where_str (x : option expr) : str := match x with Some x => lit " in expression `" ++ expr_str u sf x ++ lit "`" | None => [] end.
  Definition where_ok (x : option expr) : Prop := match x with Some x => expr_ok u b pf sf x | None => True end.
  Lemma where_eq x y : where_ok x -> where_ok y -> where_str x = where_str y -> x = y.
  Proof.
    destruct x as [x|], y as [y|]; cbn [where_ok where_str]; intros Hx Hy E; try discriminate; [|reflexivity]. apply app_inv_head in E. apply (expr_eq u b pf sf HU) in E as [-> _]; auto.
  Qed.
  Lemma plain_where s t x y : no_tick s -> no_tick t -> s ++ where_str x = t ++ where_str y -> s = t /\ where_str x = where_str y.
  Proof.
    intros Hs Ht E.
    assert (W : forall e, where_str (Some e) = lit " in expression " ++ 96 :: expr_str u sf e ++ lit "`") by reflexivity.
    assert (T : no_tick (lit " in expression ")) by ticks.
    destruct x as [x|], y as [y|]; rewrite ?W in *.
    - rewrite !(app_assoc _ (lit " in expression ")) in E. apply tick_eq in E as [E1 E2]; [|now apply no_tick_app|now apply no_tick_app].
      apply app_inv_tail in E1. split; [exact E1|]. do 2 f_equal. exact E2.
    - exfalso. cbn [where_str] in E. rewrite app_nil_r in E. apply Ht. rewrite <- E. apply in_or_app. right. apply in_or_app. right. now left.
    - exfalso. cbn [where_str] in E. rewrite app_nil_r in E. apply Hs. rewrite E. apply in_or_app. right. apply in_or_app. right. now left.
    - cbn [where_str] in *. now rewrite !app_nil_r in E.
  Qed.
  Lemma where_digit x : ends is_digit (where_str x).
  Proof. destruct x; [reflexivity|exact I]. Qed.

  Definition arg_msg (w : str) (pos : nat) (p : ptype) (v : value) : str :=
    (w ++ show_N (N.of_nat pos) ++ lit " to be of type ") ++ ptype_str p ++ lit ", got `" ++ value_str u sf v ++ lit "`".
  Definition argw (w : str) : Prop := w = lit "expected argument at position " \/ w = lit "expected variadic argument at position ".
  Lemma msg_cases s : msg_ok s -> no_tick s \/ exists w pos p v, argw w /\ value_ok v /\ s = arg_msg w pos p v.
  Proof.
    intros [H|(pos & p & v & H & [-> | ->])]; [now left|right; exists (lit "expected argument at position "), pos, p, v|right; exists (lit "expected variadic argument at position "), pos, p, v];
      (split; [now (left + right)|split; [exact H|]]); unfold arg_msg; now rewrite <- !app_assoc.
  Qed.
  Lemma ptype_tick n : forall p, (psize p <= n)%nat -> exists r, ptype_str p = 96 :: r.
  Proof.
    intros p H. assert (A := ptype_alt n p H). destruct A as [a Ha|a x l s Ha _ _]; destruct a; try contradiction; eexists; reflexivity.
  Qed.
  Lemma argw_tick w pos : argw w -> no_tick (w ++ show_N (N.of_nat pos) ++ lit " to be of type ").
  Proof. intros W. apply no_tick_app; [destruct W as [-> | ->]; ticks|]. apply no_tick_app; [apply digits_no_tick|ticks]. Qed.
  Lemma arg_plain s w pos p v x z : argw w -> no_tick s -> arg_msg w pos p v ++ z <> s ++ where_str x.
  Proof.
    intros W Hs E. unfold arg_msg in E. destruct (ptype_tick _ p (le_n _)) as [r R]. rewrite R in E. rewrite <- !(app_assoc (w ++ _)) in E. cbn [app] in E.
    destruct x as [x|].
    - change (where_str (Some x)) with (lit " in expression " ++ 96 :: expr_str u sf x ++ lit "`") in E. rewrite (app_assoc s) in E.
      apply tick_eq in E as [E _]; [|now apply argw_tick|apply no_tick_app; [exact Hs|ticks]].
      rewrite !app_assoc in E.
      change (lit " to be of type ") with (lit " to be of typ" ++ [101; 32]) in E. change (lit " in expression ") with (lit " in expressio" ++ [110; 32]) in E. 
      change [101; 32] with ([101] ++ [32]) in E. change [110; 32] with ([110] ++ [32]) in E. rewrite !app_assoc in E. apply app_inj_tail in E as [E _]. apply app_inj_tail in E as [_ E]. discriminate.
    - cbn [where_str] in E. rewrite app_nil_r in E. apply Hs. rewrite <- E. apply in_or_app. right. now left.
  Qed.
  Lemma arg_eq w w' pos pos' p p' v v' x y : argw w -> argw w' -> value_ok v -> value_ok v' ->
    arg_msg w pos p v ++ x = arg_msg w' pos' p' v' ++ y -> w = w' /\ pos = pos' /\ same_type p p' /\ ptype_str p = ptype_str p' /\ v = v' /\ x = y.
  Proof.
    intros W W' V V' E. assert (w = w') as <-.
    { destruct W as [-> | ->], W' as [-> | ->]; try reflexivity; exfalso; unfold arg_msg in E; rewrite <- !app_assoc in E; cbn in E; discriminate. }
    split; [reflexivity|]. unfold arg_msg in E. rewrite <- !app_assoc in E. apply app_inv_head in E. apply show_N_eq in E as [N E]; [|reflexivity|reflexivity].
    apply Nat2N.inj in N. split; [exact N|]. apply app_inv_head in E. assert (E' := E). apply (ptype_eq _ p p' _ _ (le_n _)) in E' as [T E2]; [|right; cbn; split; [reflexivity|discriminate]|right; cbn; split; [reflexivity|discriminate]].
    split; [exact T|]. rewrite E2 in E. apply app_inv_tail in E. split; [exact E|]. apply app_inv_head in E2. cbn [lit app] in E2. now apply (value_eq u b pf sf HU) in E2.
  Qed.
  Lemma msg_eq s t x y : msg_ok s -> msg_ok t -> s ++ where_str x = t ++ where_str y -> s = t /\ where_str x = where_str y.
  Proof.
    intros Hs Ht E. destruct (msg_cases s Hs) as [Ps|(w & pos & p & v & W & V & ->)], (msg_cases t Ht) as [Pt|(w' & pos' & p' & v' & W' & V' & ->)].
    - now apply plain_where.
    - symmetry in E. now apply arg_plain in E.
    - now apply arg_plain in E.
    - apply arg_eq in E as (<- & <- & _ & E & <- & F); auto. split; [|exact F]. unfold arg_msg. now rewrite E.
  Qed.

  Lemma binop_no_tick o : no_tick (binop_str o).
  Proof. destruct o; ticks. Qed.
  Lemma unop_no_tick o : no_tick (unop_str o).
  Proof. destruct o; ticks. Qed.
  Lemma binop_inj o p : binop_str o = binop_str p -> o = p.
  Proof. destruct o, p; cbn; intros E; try discriminate; reflexivity. Qed.
  Lemma unop_inj o p : unop_str o = unop_str p -> o = p.
  Proof. destruct o, p; cbn; intros E; try discriminate; reflexivity. Qed.

  Lemma error_eq e1 e2 : error_ok e1 -> error_ok e2 -> error_str u sf e1 = error_str u sf e2 -> e1 = e2.
  Proof.
    destruct e1 as [k1 x1], e2 as [k2 x2]. intros [K1 X1] [K2 X2] E. cbn [err_kind err_expr] in *.
    unfold error_str in E. cbn [err_kind err_expr] in E. fold (where_str x1) in E. fold (where_str x2) in E.
    assert (G : k1 = k2 /\ where_str x1 = where_str x2); [|destruct G as [-> W]; f_equal; now apply where_eq].
    destruct k1 as [m1|n1|f1|v1 s1|i1|o1 v1|l1 o1 r1|n1|n1|f1 s1], k2 as [m2|n2|f2|v2 s2|i2|o2 v2|l2 o2 r2|n2|n2|f2 s2]; cbn [kind_ok] in K1, K2; try contradiction; cbn [kind_str] in E; rewrite <- ?app_assoc in E;
      try (exfalso; cbn in E; discriminate); apply app_inv_head in E.
    - apply tick_eq in E as [-> E]; auto using name_no_tick.
    - apply tick_eq in E as [N E]; auto using fname_no_tick. apply fname_inj in N as ->; auto.
    - destruct K1 as [V1 S1], K2 as [V2 S2]. apply (value_eq u b pf sf HU) in E as [-> E]; auto. apply (app_inv_head (lit ", expected ")) in E. apply plain_where in E as [-> E]; auto.
    - apply show_N_eq in E as [-> E]; [auto|apply (where_digit x1)|apply (where_digit x2)].
    - apply tick_eq in E as [N E]; auto using unop_no_tick. apply unop_inj in N as ->. apply (app_inv_head (lit " is not applicable to `")) in E. apply (value_eq u b pf sf HU) in E as [-> E]; auto.
    - destruct K1 as [V1 S1], K2 as [V2 S2]. apply tick_eq in E as [N E]; auto using binop_no_tick. apply binop_inj in N as ->. apply (app_inv_head (lit " is not applicable to `")) in E. apply (value_eq u b pf sf HU) in E as [-> E]; auto.
      apply (app_inv_head (lit " and `")) in E. apply (value_eq u b pf sf HU) in E as [-> E]; auto.
    - apply tick_eq in E as [-> E]; auto.
    - apply tick_eq in E as [-> E]; auto. apply (app_inv_head (lit " already exists")) in E. auto.
    - destruct K1 as [F1 S1], K2 as [F2 S2]. apply tick_eq in E as [N E]; auto using fname_no_tick. apply fname_inj in N as ->; auto. apply (app_inv_head (lit ": ")) in E. apply msg_eq in E as [-> E]; auto.
  Qed.

  (** Several errors. *)
  Lemma line_eq s t r r' : one_line s -> one_line t -> s ++ 10 :: r = t ++ 10 :: r' -> s = t /\ r = r'.
  Proof.
    unfold one_line. revert t. induction s as [|c s IH]; intros [|d t] Hs Ht E; cbn [app] in E.
    - now injection E as ->.
    - injection E as <- _. exfalso. apply Ht. now left.
    - injection E as -> _. exfalso. apply Hs. now left.
    - injection E as -> E. destruct (IH t) as [-> ->]; auto; [intros H; apply Hs; now right|intros H; apply Ht; now right].
  Qed.
  Lemma lines_eq l1 : forall l2, Forall error_ok l1 -> Forall error_ok l2 -> Forall (fun e => one_line (error_str u sf e)) l1 -> Forall (fun e => one_line (error_str u sf e)) l2 ->
    concat (map (fun e => lit "- " ++ error_str u sf e ++ [10]) l1) = concat (map (fun e => lit "- " ++ error_str u sf e ++ [10]) l2) -> l1 = l2.
  Proof.
    induction l1 as [|e l1 IH]; intros [|e' l2] H1 H2 O1 O2 E; cbn [map concat] in E; try reflexivity; try discriminate.
    inversion H1; inversion H2; inversion O1; inversion O2; subst. rewrite <- !app_assoc in E. apply app_inv_head in E. apply line_eq in E as [E1 E2]; auto. f_equal; auto using error_eq.
  Qed.
  Lemma error_first e : error_ok e -> ends is_digit (error_str u sf e) /\ error_str u sf e <> [].
  Proof.
    destruct e as [k x]. intros [K _]. cbn [err_kind] in K. unfold error_str. cbn [err_kind]. destruct k; cbn [kind_ok] in K; try contradiction; cbn; (split; [reflexivity|discriminate]).
  Qed.
  Lemma errors_many l : length l <> 1%nat -> errors_str u sf l = show_N (N.of_nat (length l)) ++ lit " errors occurred:" ++ [10] ++ concat (map (fun e => lit "- " ++ error_str u sf e ++ [10]) l).
  Proof. intros H. destruct l as [|e [|e' l]]; try reflexivity. now destruct H. Qed.
  Lemma errors_eq l1 l2 : Forall error_ok l1 -> Forall error_ok l2 -> Forall (fun e => one_line (error_str u sf e)) l1 -> Forall (fun e => one_line (error_str u sf e)) l2 ->
    errors_str u sf l1 = errors_str u sf l2 -> l1 = l2.
  Proof.
    intros H1 H2 O1 O2 E.
    assert (X : forall e l, error_ok e -> length l <> 1%nat -> error_str u sf e <> errors_str u sf l).
    { intros e l He Hl F. destruct (error_first e He) as [D N]. rewrite errors_many in F by exact Hl. rewrite F in D. assert (D' := show_N_digits (N.of_nat (length l))). destruct (show_N_head (N.of_nat (length l))) as (c & s & S & _). rewrite S in *. cbn [app ends forallb] in *. rewrite D in D'. discriminate. }
    destruct (Nat.eq_dec (length l1) 1) as [L1|L1], (Nat.eq_dec (length l2) 1) as [L2|L2].
    - destruct l1 as [|e1 [|]], l2 as [|e2 [|]]; try discriminate. inversion H1; inversion H2; subst. f_equal. now apply error_eq.
    - destruct l1 as [|e1 [|]]; try discriminate. inversion H1; subst. now apply X in E.
    - destruct l2 as [|e2 [|]]; try discriminate. inversion H2; subst. symmetry in E. now apply X in E.
    - rewrite !errors_many in E by assumption. apply show_N_eq in E as [_ E]; [|reflexivity|reflexivity]. apply app_inv_head in E. apply app_inv_head in E. now apply lines_eq.
  Qed.
End Texts.

(** ** Collecting errors *)
Lemma add_none l : fold_left add_errors l None = None <-> Forall (fun x => x = None) l.
Proof.
  assert (S : forall l a, fold_left add_errors l (Some a) <> None).
  { induction l0 as [|x l0 IH]; intros a; cbn [fold_left]; [discriminate|]. apply IH. }
  induction l as [|[x|] l IH]; cbn [fold_left add_errors]; [split; [constructor|reflexivity]|split|].
  - intros H. now apply S in H.
  - intros H. inversion H. discriminate.
  - rewrite IH. split; [now constructor|]. intros H. now inversion H.
Qed.
Definition listed (x : option errors) : errors := match x with Some l => l | None => [] end.
Lemma add_listed l : forall a, listed (fold_left add_errors l a) = listed a ++ concat (map listed l).
Proof.
  induction l as [|x l IH]; intros a; cbn [fold_left map concat]; [now rewrite app_nil_r|]. rewrite IH. destruct a as [a|], x as [x|]; cbn [add_errors listed app]; now rewrite <- ?app_assoc.
Qed.

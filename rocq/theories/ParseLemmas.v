(** * Reasoning about parsers

    [sat bad n o p P]: started at offset [o] on a text of at most [n] characters, [p] consumes a
    prefix of the text (also when it fails), its positions are byte offsets, the consumed text and
    the result of a success satisfy [P], it never runs out of fuel, and it panics only on texts
    satisfying [bad]. *)
From Coq Require Import NArith ZArith Bool String List Lia.
From Verif Require Import Res Str EAst ParseBase ParseModel Grammar.
Import ListNotations.
Open Scope N_scope.

Lemma blen_app s t : blen (s ++ t) = blen s + blen t.
Proof. induction s as [|c s IH]; cbn [app blen]; [reflexivity|]. rewrite IH. lia. Qed.

Lemma app_len_eq {A} (t s : list A) : List.length (t ++ s) = List.length s -> t = [].
Proof. rewrite app_length. destruct t; [reflexivity|]. cbn. lia. Qed.

Section Sat.
  Context (bad : str -> Prop).
  Context (bad_app : forall (t s : str), bad s -> bad (t ++ s)).

  Definition sat {A} (n : nat) (o : N) (p : parser A) (P : str -> A -> Prop) : Prop :=
    forall s : str, (List.length s <= n)%nat ->
      match p (o, s) with
      | POk a s' => exists t, s = t ++ snd s' /\ fst s' = o + blen t /\ P t a
      | PErr _ s' => exists t, s = t ++ snd s' /\ fst s' = o + blen t
      | PPanic => bad s
      | PFuel => False
      end.

  Lemma sat_imp {A} n n' o (p : parser A) (P Q : str -> A -> Prop) :
    sat n o p P -> (n' <= n)%nat -> (forall t a, P t a -> Q t a) -> sat n' o p Q.
  Proof.
    intros H Hn HPQ s Hs. specialize (H s ltac:(lia)). destruct (p (o, s)) as [a s'| | |]; auto.
    destruct H as (t & E & F & G). eauto.
  Qed.
  Lemma sat_le {A} n n' o (p : parser A) P : sat n o p P -> (n' <= n)%nat -> sat n' o p P.
  Proof. intros. eapply sat_imp; eauto. Qed.
  Lemma sat_conseq {A} n o (p : parser A) (P Q : str -> A -> Prop) :
    sat n o p P -> (forall t a, P t a -> Q t a) -> sat n o p Q.
  Proof. intros. eapply sat_imp; eauto. Qed.

  Lemma sat_ret {A} n o (a : A) (P : str -> A -> Prop) : P [] a -> sat n o (ret a) P.
  Proof.
    intros H s Hs. cbn. exists []. cbn. rewrite N.add_0_r. auto.
  Qed.
  Lemma sat_fail {A} n o (P : str -> A -> Prop) : sat n o fail P.
  Proof. intros s Hs. cbn. exists []. cbn. rewrite N.add_0_r. auto. Qed.

  Lemma sat_bind {A B} n o (p : parser A) (f : A -> parser B) P Q :
    sat n o p P ->
    (forall t a, P t a -> (List.length t <= n)%nat ->
       sat (n - List.length t) (o + blen t) (f a) (fun t' r => Q (t ++ t') r)) ->
    sat n o (bind p f) Q.
  Proof.
    intros Hp Hf s Hs. unfold bind. specialize (Hp s Hs). destruct (p (o, s)) as [a s'|c s'| |]; auto.
    destruct Hp as (t & E & F & G). destruct s' as [o' s']. cbn [fst snd] in *. subst o' s.
    rewrite app_length in Hs.
    specialize (Hf t a G ltac:(lia) s' ltac:(lia)).
    revert Hf. generalize (f a (o + blen t, s')). intros [r s2|c s2| |] Hf; auto.
    - destruct Hf as (t' & -> & F & H). exists (t ++ t'). rewrite blen_app, app_assoc, F. split; [reflexivity|].
      split; [lia|exact H].
    - destruct Hf as (t' & -> & F). exists (t ++ t'). rewrite blen_app, app_assoc, F. split; [reflexivity|lia].
  Qed.

  (** The condition on one result, for parsers that go back to an earlier state. *)
  Definition out_ok {A} (o : N) (s : str) (r : pres A) (P : str -> A -> Prop) : Prop :=
    match r with
    | POk a s' => exists t, s = t ++ snd s' /\ fst s' = o + blen t /\ P t a
    | PErr _ s' => exists t, s = t ++ snd s' /\ fst s' = o + blen t
    | PPanic => bad s
    | PFuel => False
    end.
  Lemma out_ok_after {A} o t s (r : pres A) (P : str -> A -> Prop) :
    out_ok (o + blen t) s r (fun t' a => P (t ++ t') a) -> out_ok o (t ++ s) r P.
  Proof.
    destruct r as [a s'|c s'| |]; cbn [out_ok]; auto.
    - intros (t' & -> & F & G). exists (t ++ t'). rewrite blen_app, app_assoc, F. split; [reflexivity|]. split; [lia|exact G].
    - intros (t' & -> & F). exists (t ++ t'). rewrite blen_app, app_assoc, F. split; [reflexivity|lia].
  Qed.
  (** [p] is followed by a computation that may go back to the state before [p]. *)
  Lemma sat_ctx {A B} n o (p : parser A) (f : st -> A -> parser B) P Q :
    sat n o p P ->
    (forall t a s, P t a -> (List.length (t ++ s) <= n)%nat ->
       out_ok o (t ++ s) (f (o, t ++ s) a (o + blen t, s)) Q) ->
    sat n o (fun s0 => bind p (f s0) s0) Q.
  Proof.
    intros Hp Hf s Hs. unfold bind. specialize (Hp s Hs). destruct (p (o, s)) as [a s'|c s'| |]; auto.
    destruct Hp as (t & E & F & G). destruct s' as [o' s']. cbn [fst snd] in *. subst o' s.
    exact (Hf t a s' G Hs).
  Qed.

  Lemma sat_pmap {A B} n o (f : A -> B) (p : parser A) (Q : str -> B -> Prop) :
    sat n o p (fun t a => Q t (f a)) -> sat n o (pmap f p) Q.
  Proof.
    intros H. unfold pmap. eapply sat_bind; [exact H|]. intros t a Ha Hl. apply sat_ret. rewrite app_nil_r. exact Ha.
  Qed.

  Lemma sat_cut {A} n o (p : parser A) P : sat n o p P -> sat n o (cut p) P.
  Proof. intros H s Hs. unfold cut. specialize (H s Hs). destruct (p (o, s)); auto. Qed.

  Lemma here {A} o s (P : str -> A -> Prop) a :
    P [] a -> exists t, s = t ++ snd (o, s) /\ fst (o, s) = o + blen t /\ P t a.
  Proof. intros. exists []. cbn. rewrite N.add_0_r. auto. Qed.
  Lemma here' o (s : str) : exists t, s = t ++ snd (o, s) /\ fst (o, s) = o + blen t.
  Proof. exists []. cbn. rewrite N.add_0_r. auto. Qed.

  Lemma sat_alt {A} n o (p q : parser A) P : sat n o p P -> sat n o q P -> sat n o (alt p q) P.
  Proof.
    intros Hp Hq s Hs. unfold alt. specialize (Hp s Hs). specialize (Hq s Hs).
    destruct (p (o, s)) as [a s'|[] s'| |]; auto. destruct (q (o, s)) as [a s2|[] s2| |]; auto using here'.
  Qed.
  Lemma sat_opt {A} n o (p : parser A) (P : str -> option A -> Prop) :
    sat n o p (fun t a => P t (Some a)) -> P [] None -> sat n o (opt p) P.
  Proof.
    intros Hp HN s Hs. unfold opt. specialize (Hp s Hs).
    destruct (p (o, s)) as [a s'|[] s'| |]; auto using here.
  Qed.
  Lemma sat_peek {A} n o (p : parser A) P (Q : str -> A -> Prop) :
    sat n o p P -> (forall t a, P t a -> Q [] a) -> sat n o (peek p) Q.
  Proof.
    intros Hp HQ s Hs. unfold peek. specialize (Hp s Hs).
    destruct (p (o, s)) as [a s'|c s'| |]; auto using here'.
    destruct Hp as (t & _ & _ & H). eauto using here.
  Qed.
  Lemma sat_not {A} n o (p : parser A) P : sat n o p P -> sat n o (pnot p) (fun t _ => t = []).
  Proof.
    intros Hp s Hs. unfold pnot. specialize (Hp s Hs).
    destruct (p (o, s)) as [a s'|[] s'| |]; auto using here', here.
  Qed.
  Lemma sat_verify_map {A B} n o (p : parser A) (f : A -> option B) (P : str -> B -> Prop) :
    sat n o p (fun t a => forall r, f a = Some r -> P t r) -> sat n o (verify_map p f) P.
  Proof.
    intros Hp s Hs. unfold verify_map. specialize (Hp s Hs).
    destruct (p (o, s)) as [a s'|c s'| |]; auto. destruct Hp as (t & E & F & G).
    destruct (f a) as [r|] eqn:Ef; [|apply here']. exists t. auto.
  Qed.
  Lemma sat_with_span {A} n o (p : parser A) (P : str -> A * bspan -> Prop) :
    sat n o p (fun t a => P t (a, sp_of o t)) -> sat n o (with_span p) P.
  Proof.
    intros Hp s Hs. unfold with_span. specialize (Hp s Hs).
    destruct (p (o, s)) as [a s'|c s'| |]; auto. destruct Hp as (t & E & F & G). exists t.
    split; [exact E|]. split; [exact F|]. cbn [fst]. rewrite F. exact G.
  Qed.
  Lemma sat_pspan {A} n o (p : parser A) (P : str -> bspan -> Prop) :
    sat n o p (fun t a => P t (sp_of o t)) -> sat n o (pspan p) P.
  Proof. intros H. apply sat_pmap, sat_with_span. exact H. Qed.
  Lemma consumed_app t s : consumed (t ++ s) s = t.
  Proof.
    unfold consumed. rewrite app_length. replace (List.length t + List.length s - List.length s)%nat with (List.length t + 0)%nat by lia.
    rewrite firstn_app_2. cbn. apply app_nil_r.
  Qed.
  Lemma sat_with_taken {A} n o (p : parser A) (P : str -> A * str -> Prop) :
    sat n o p (fun t a => P t (a, t)) -> sat n o (with_taken p) P.
  Proof.
    intros Hp s Hs. unfold with_taken. specialize (Hp s Hs).
    destruct (p (o, s)) as [a s'|c s'| |]; auto. destruct Hp as (t & -> & F & G). exists t.
    split; [reflexivity|]. split; [exact F|]. cbn [snd]. rewrite consumed_app. exact G.
  Qed.
  Lemma sat_taken {A} n o (p : parser A) (P : str -> str -> Prop) :
    sat n o p (fun t a => P t t) -> sat n o (taken p) P.
  Proof. intros H. apply sat_pmap, sat_with_taken. exact H. Qed.
  Lemma sat_pos n o (P : str -> N -> Prop) : P [] o -> sat n o pos P.
  Proof. intros H s Hs. cbn. exact (here o s P o H). Qed.

  Lemma sat_any n o (P : str -> N -> Prop) : (forall c, P [c] c) -> sat n o any P.
  Proof.
    intros H s Hs. unfold any. cbn [fst snd]. destruct s as [|c s]; [exact (here' o [])|].
    exists [c]. cbn. rewrite N.add_0_r. auto.
  Qed.
  Lemma sat_one_of n o f (P : str -> N -> Prop) :
    (forall c, f c = true -> P [c] c) -> sat n o (one_of f) P.
  Proof.
    intros H s Hs. unfold one_of. cbn [fst snd]. destruct s as [|c s]; [exact (here' o [])|].
    destruct (f c) eqn:E; [|apply here']. exists [c]. cbn. rewrite N.add_0_r. auto.
  Qed.
  Lemma sat_char n o c (P : str -> N -> Prop) : P [c] c -> sat n o (char c) P.
  Proof. intros H. apply sat_one_of. intros x E. apply N.eqb_eq in E. subst x. exact H. Qed.
  Lemma sat_tag n o t (P : str -> unit -> Prop) : P t tt -> sat n o (tag t) P.
  Proof.
    intros H s Hs. unfold tag. cbn [fst snd]. destruct (starts_with t s) eqn:E; [|apply here'].
    apply starts_with_spec in E. destruct E as [r ->]. exists t. cbn [fst snd].
    replace (skipn (List.length t) (t ++ r)) with r; [auto|].
    rewrite skipn_app, skipn_all, Nat.sub_diag. reflexivity.
  Qed.
  Lemma sat_take_while0 n o f (P : str -> str -> Prop) :
    (forall t, forallb f t = true -> P t t) -> sat n o (take_while0 f) P.
  Proof.
    intros H s Hs. unfold take_while0. cbn [fst snd].
    pose proof (span_app f s) as E. pose proof (span_forall f s) as F. destruct (span f s) as [x y].
    cbn [fst snd] in *. exists x. auto.
  Qed.
  Lemma sat_take_while1 n o f (P : str -> str -> Prop) :
    (forall t, forallb f t = true -> t <> [] -> P t t) -> sat n o (take_while1 f) P.
  Proof.
    intros H s Hs. unfold take_while1. cbn [fst snd].
    pose proof (span_app f s) as E. pose proof (span_forall f s) as F. destruct (span f s) as [x y].
    cbn [fst snd] in *. destruct x as [|c x]; [apply here'|]. exists (c :: x). split; [auto|]. split; [auto|].
    apply H; [exact F|discriminate].
  Qed.
  Lemma sat_take_n n o k (P : str -> str -> Prop) :
    (forall t, List.length t = k -> P t t) -> sat n o (take_n k) P.
  Proof.
    intros H s Hs. unfold take_n. cbn [fst snd]. destruct (Nat.leb k (List.length s)) eqn:E; [|apply here'].
    apply Nat.leb_le in E. exists (firstn k s). cbn [fst snd]. rewrite firstn_skipn. split; [reflexivity|]. split; [reflexivity|].
    apply H. apply firstn_length_le, E.
  Qed.
  Lemma sat_eof n o (P : str -> unit -> Prop) : P [] tt -> sat n o eof P.
  Proof.
    intros H s Hs. unfold eof. cbn [snd]. destruct s; [exact (here o [] P tt H)|apply here'].
  Qed.
  Lemma find_tag_spec t s x : find_tag t s = Some x -> exists r, s = x ++ t ++ r /\ find_tag t (x ++ t) = Some x.
  Proof.
    revert x. induction s as [|c s IH]; intros x H.
    - cbn in H. destruct (starts_with t []) eqn:E; [|discriminate]. injection H as <-.
      apply starts_with_spec in E. destruct E as [r E]. exists r. split; [exact E|].
      cbn [app]. assert (S : starts_with t t = true). { apply starts_with_spec. exists []. symmetry. apply app_nil_r. }
      destruct t; cbn [find_tag]; rewrite ?S; reflexivity.
    - cbn in H. destruct (starts_with t (c :: s)) eqn:E.
      + injection H as <-. apply starts_with_spec in E. destruct E as [r E]. exists r. split; [exact E|].
        cbn [app]. assert (S : starts_with t t = true). { apply starts_with_spec. exists []. symmetry. apply app_nil_r. }
        destruct t; cbn [find_tag]; rewrite ?S; reflexivity.
      + destruct (find_tag t s) as [y|] eqn:F; [|discriminate]. injection H as <-.
        destruct (IH y eq_refl) as (r & -> & G). exists r. split; [reflexivity|].
        cbn [app find_tag]. rewrite G.
        destruct (starts_with t (c :: y ++ t)) eqn:S; [|reflexivity]. exfalso.
        apply starts_with_spec in S. destruct S as [q S].
        assert (X : starts_with t (c :: y ++ t ++ r) = true).
        { apply starts_with_spec. exists (q ++ r). rewrite (app_assoc t q r), <- S. cbn. rewrite <- app_assoc. reflexivity. }
        congruence.
  Qed.
  Lemma sat_take_until n o t (P : str -> str -> Prop) :
    (forall x, find_tag t (x ++ t) = Some x -> P x x) -> sat n o (take_until t) P.
  Proof.
    intros H s Hs. unfold take_until. cbn [fst snd]. destruct (find_tag t s) as [x|] eqn:E; [|apply here'].
    apply find_tag_spec in E. destruct E as (r & -> & G). exists x. cbn [fst snd].
    replace (skipn (List.length x) (x ++ t ++ r)) with (t ++ r); [auto|].
    rewrite skipn_app, skipn_all, Nat.sub_diag. reflexivity.
  Qed.

  (** Repetition. *)
  Lemma sat_many_loop {A} (P : N -> str -> A -> Prop) p k : forall n o,
    (forall m o, (m <= n)%nat -> sat m o p (P o)) -> (forall o t a, P o t a -> t <> []) ->
    (n < k)%nat -> sat n o (many_loop k p) (rep P o).
  Proof.
    induction k as [|k IH]; intros n o Hp Hne Hk s Hs; [lia|]. cbn [many_loop].
    pose proof (Hp n o (le_n n) s Hs) as H. destruct (p (o, s)) as [a s'|[] s'| |]; auto.
    - destruct H as (t & E & F & G). destruct s' as [o' s']. cbn [fst snd] in *. subst s o'.
      destruct (Nat.eqb _ _) eqn:Q.
      { apply Nat.eqb_eq in Q; symmetry in Q; apply app_len_eq in Q. exfalso. eapply Hne; eauto. }
      assert (L : (1 <= List.length t)%nat). { destruct t; [exfalso; eapply Hne; eauto|cbn; lia]. }
      rewrite app_length in Hs.
      assert (IHs := IH (n - List.length t)%nat (o + blen t)).
      specialize (IHs (fun m o' Hm => Hp m o' ltac:(lia)) Hne ltac:(lia) s' ltac:(lia)).
      destruct (many_loop k p (o + blen t, s')) as [l s2|c s2| |]; auto.
      + destruct IHs as (t' & -> & F & HR). exists (t ++ t'). rewrite app_assoc, blen_app, F.
        split; [reflexivity|]. split; [lia|]. constructor; assumption.
      + destruct IHs as (t' & -> & F). exists (t ++ t'). rewrite app_assoc, blen_app, F. split; [reflexivity|lia].
    - exact (here o s (rep P o) [] (rep_nil P o)).
  Qed.
  Lemma sat_many0 {A} (P : N -> str -> A -> Prop) p n o :
    (forall m o, (m <= n)%nat -> sat m o p (P o)) -> (forall o t a, P o t a -> t <> []) ->
    sat n o (many0 p) (rep P o).
  Proof.
    intros Hp Hne s Hs. unfold many0. cbn [snd].
    assert (H := sat_many_loop P p (S (List.length s)) (List.length s) o
                   (fun m o' Hm => Hp m o' ltac:(lia)) Hne ltac:(lia) s (le_n _)).
    exact H.
  Qed.
  Lemma sat_many1 {A} (P : N -> str -> A -> Prop) p n o :
    (forall m o, (m <= n)%nat -> sat m o p (P o)) -> (forall o t a, P o t a -> t <> []) ->
    sat n o (many1 p) (fun t l => rep P o t l /\ l <> [] /\ t <> []).
  Proof.
    intros Hp Hne. unfold many1. eapply sat_bind; [apply Hp; lia|]. intros t a Ha Hl.
    eapply sat_bind. { apply (sat_many0 P); [|exact Hne]. intros m o' Hm. apply Hp. lia. }
    intros t' l HR Hl'. apply sat_ret. rewrite app_nil_r. split; [constructor; assumption|].
    split; [discriminate|]. intros E. apply app_eq_nil in E. destruct E as [E _]. subst t. eapply Hne; eauto.
  Qed.
  Lemma sat_separated1 {A B} (P Q : N -> str -> A -> Prop) (p : parser A) (sep : parser B) n o :
    (forall o, sat n o p (P o)) ->
    (forall m o, (m <= n)%nat -> sat m o (sep ;; p) (Q o)) -> (forall o t a, Q o t a -> t <> []) ->
    sat n o (separated1 p sep) (fun t l => exists a l' t1 t2, l = a :: l' /\ t = t1 ++ t2 /\ P o t1 a /\
      rep Q (o + blen t1) t2 l').
  Proof.
    intros Hp Hq Hne. unfold separated1. eapply sat_bind; [apply Hp|]. intros t a Ha Hl.
    eapply sat_bind. { apply (sat_many0 Q); [|exact Hne]. intros m o' Hm. apply Hq. lia. }
    intros t' l HR Hl'. apply sat_ret. rewrite app_nil_r. exists a, l, t, t'. auto.
  Qed.
End Sat.

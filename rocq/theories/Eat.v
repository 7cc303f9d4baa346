(** * Parsers which succeed: a calculus

    [eat inp p t Q rest]: where the text [inp] ends with [t ++ rest], [p] consumes exactly [t] and returns a
    value that satisfies [Q].  [miss p s]: on the text [s] the parser fails recoverably. *)
From Coq Require Import NArith Arith Bool String List Lia.
From Verif Require Import Res Str Dec EAst ParseBase ParseLemmas.
Import ListNotations.
Open Scope N_scope.

Notation mk o s := (@pair N (list N) o s).
(** The text [s] is the end of [inp] that starts at offset [o]. *)
Definition tail_at (inp : str) (o : N) (s : str) : Prop := exists pre, inp = pre ++ s /\ blen pre = o.
Lemma tail_app inp o t s : tail_at inp o (t ++ s) -> tail_at inp (o + blen t) s.
Proof. intros (pre & -> & <-). exists (pre ++ t). rewrite blen_app. split; [apply app_assoc|reflexivity]. Qed.
Lemma tail_0 inp : tail_at inp 0 inp.
Proof. exists []. auto. Qed.
Definition eat (inp : str) {A} (p : parser A) (t : str) (Q : A -> Prop) (rest : str) : Prop :=
  forall o, tail_at inp o (t ++ rest) -> exists a, p (mk o (t ++ rest)) = POk a (mk (o + blen t) rest) /\ Q a.
Definition miss (inp : str) {A} (p : parser A) (s : str) : Prop := forall o, tail_at inp o s -> exists s', p (mk o s) = PErr false s'.
Section Eat.
Context {inp : str}.
Lemma eat_imp {A} (p : parser A) t (Q Q' : A -> Prop) r : eat inp p t Q r -> (forall a, Q a -> Q' a) -> eat inp p t Q' r.
Proof. intros H HI o T. destruct (H o T) as (a & E & HQ). eauto. Qed.
Lemma eat_ret {A} (a : A) (Q : A -> Prop) r : Q a -> eat inp (ret a) [] Q r.
Proof. intros H o _. exists a. split; [|exact H]. unfold ret. cbn [app blen]. now rewrite N.add_0_r. Qed.
Lemma eat_bind {A B} (p : parser A) (f : A -> parser B) t1 t2 P Q r :
  eat inp p t1 P (t2 ++ r) -> (forall a, P a -> eat inp (f a) t2 Q r) -> eat inp (bind p f) (t1 ++ t2) Q r.
Proof.
  intros H1 H2 o T. rewrite <- app_assoc in T. destruct (H1 o T) as (a & E & HP).
  destruct (H2 a HP (o + blen t1)) as (a' & E' & HQ); [now apply tail_app|].
  exists a'. split; [|exact HQ]. unfold bind. rewrite <- app_assoc, E. refine (eq_trans E' _). now rewrite blen_app, N.add_assoc.
Qed.
Lemma eat_bind' {A B} (p : parser A) (f : A -> parser B) t t1 t2 P Q r : t = t1 ++ t2 ->
  eat inp p t1 P (t2 ++ r) -> (forall a, P a -> eat inp (f a) t2 Q r) -> eat inp (bind p f) t Q r.
Proof. intros ->. apply eat_bind. Qed.
Lemma eat_pmap {A B} (f : A -> B) p t (Q : B -> Prop) r : eat inp p t (fun a => Q (f a)) r -> eat inp (pmap f p) t Q r.
Proof.
  intros H. unfold pmap. apply (eat_bind' p _ t t [] (fun a => Q (f a))); [now rewrite app_nil_r|exact H|].
  intros a HQ. apply eat_ret. exact HQ.
Qed.
Lemma eat_cut {A} (p : parser A) t Q r : eat inp p t Q r -> eat inp (cut p) t Q r.
Proof. intros H o T. destruct (H o T) as (a & E & HQ). exists a. unfold cut. now rewrite E. Qed.
Lemma eat_alt1 {A} (p q : parser A) t Q r : eat inp p t Q r -> eat inp (alt p q) t Q r.
Proof. intros H o T. destruct (H o T) as (a & E & HQ). exists a. unfold alt. now rewrite E. Qed.
Lemma eat_alt2 {A} (p q : parser A) t Q r : miss inp p (t ++ r) -> eat inp q t Q r -> eat inp (alt p q) t Q r.
Proof. intros M H o T. destruct (M o T) as (s' & E1). destruct (H o T) as (a & E & HQ). exists a. unfold alt. now rewrite E1, E. Qed.
Lemma eat_opt {A} (p : parser A) t (Q : option A -> Prop) r : eat inp p t (fun a => Q (Some a)) r -> eat inp (opt p) t Q r.
Proof. intros H o T. destruct (H o T) as (a & E & HQ). exists (Some a). unfold opt. now rewrite E. Qed.
Lemma eat_opt_none {A} (p : parser A) (Q : option A -> Prop) r : miss inp p r -> Q None -> eat inp (opt p) [] Q r.
Proof.
  intros M HQ o T. destruct (M o T) as (s' & E). exists None. split; [|exact HQ]. unfold opt. cbn [app blen]. rewrite E, N.add_0_r. reflexivity.
Qed.
Lemma eat_peek {A} (p : parser A) t Q r : eat inp p t Q r -> eat inp (peek p) [] Q (t ++ r).
Proof. intros H o T. destruct (H o T) as (a & E & HQ). exists a. split; [|exact HQ]. unfold peek. cbn [app blen]. now rewrite E, N.add_0_r. Qed.
Lemma eat_pnot {A} (p : parser A) (Q : unit -> Prop) r : miss inp p r -> Q tt -> eat inp (pnot p) [] Q r.
Proof. intros M HQ o T. destruct (M o T) as (s' & E). exists tt. split; [|exact HQ]. unfold pnot. cbn [app blen]. now rewrite E, N.add_0_r. Qed.
Lemma eat_verify_map {A B} (p : parser A) (f : A -> option B) t (Q : B -> Prop) r :
  eat inp p t (fun a => exists b, f a = Some b /\ Q b) r -> eat inp (verify_map p f) t Q r.
Proof. intros H o T. destruct (H o T) as (a & E & b & Eb & HQ). exists b. unfold verify_map. now rewrite E, Eb. Qed.
Lemma eat_lift {A} (x : res A) a (Q : A -> Prop) r : x = Done a -> Q a -> eat inp (lift x) [] Q r.
Proof. intros -> H o _. exists a. split; [|exact H]. unfold lift. cbn [app blen]. now rewrite N.add_0_r. Qed.
Lemma eat_with_span {A} (p : parser A) t (Q : A * bspan -> Prop) r :
  eat inp p t (fun a => forall sp, Q (a, sp)) r -> eat inp (with_span p) t Q r.
Proof. intros H o T. destruct (H o T) as (a & E & HQ). eexists. unfold with_span. rewrite E. split; [reflexivity|]. apply HQ. Qed.
Lemma eat_with_span_at {A} (p : parser A) t (Q : A * bspan -> Prop) r :
  eat inp p t (fun a => forall o, tail_at inp o (t ++ r) -> Q (a, (o, o + blen t))) r -> eat inp (with_span p) t Q r.
Proof. intros H o T. destruct (H o T) as (a & E & HQ). eexists. unfold with_span. rewrite E. split; [reflexivity|]. now apply HQ. Qed.
Lemma eat_pspan_at {A} (p : parser A) t (Q : bspan -> Prop) r : eat inp p t (fun _ => True) r ->
  (forall o, tail_at inp o (t ++ r) -> Q (o, o + blen t)) -> eat inp (pspan p) t Q r.
Proof. intros H HQ. unfold pspan. apply eat_pmap, eat_with_span_at. eapply eat_imp; [exact H|]. intros a _. exact HQ. Qed.
Lemma eat_pspan {A} (p : parser A) t (Q : bspan -> Prop) r : eat inp p t (fun _ => True) r -> (forall sp, Q sp) -> eat inp (pspan p) t Q r.
Proof. intros H HQ. unfold pspan. apply eat_pmap, eat_with_span. eapply eat_imp; [exact H|]. intros. apply HQ. Qed.
Lemma consumed_app t (r : str) : consumed (t ++ r) r = t.
Proof. unfold consumed. rewrite app_length, Nat.add_sub, firstn_app, firstn_all, Nat.sub_diag, firstn_O. apply app_nil_r. Qed.
Lemma eat_with_taken {A} (p : parser A) t (Q : A * str -> Prop) r : eat inp p t (fun a => Q (a, t)) r -> eat inp (with_taken p) t Q r.
Proof.
  intros H o T. destruct (H o T) as (a & E & HQ). exists (a, t). unfold with_taken. rewrite E. cbn [snd]. now rewrite consumed_app.
Qed.
Lemma eat_taken {A} (p : parser A) t (Q : str -> Prop) r : eat inp p t (fun _ => True) r -> Q t -> eat inp (taken p) t Q r.
Proof. intros H HQ. unfold taken. apply eat_pmap, eat_with_taken. eapply eat_imp; [exact H|]. intros. exact HQ. Qed.
Lemma eat_pos (Q : N -> Prop) r : (forall n, Q n) -> eat inp pos [] Q r.
Proof. intros H o _. exists o. unfold pos. cbn [app blen fst]. now rewrite N.add_0_r. Qed.

Lemma blen_1 c : blen [c] = clen c.
Proof. cbn. apply N.add_0_r. Qed.
Lemma eat_one_of f c (Q : N -> Prop) r : f c = true -> Q c -> eat inp (one_of f) [c] Q r.
Proof. intros Hf HQ o _. exists c. split; [|exact HQ]. unfold one_of. cbn [snd app fst]. now rewrite Hf, blen_1. Qed.
Lemma eat_char c (Q : N -> Prop) r : Q c -> eat inp (char c) [c] Q r.
Proof. intros HQ. apply eat_one_of; [apply N.eqb_refl|exact HQ]. Qed.
Lemma eat_any c (Q : N -> Prop) r : Q c -> eat inp any [c] Q r.
Proof. intros HQ o _. exists c. split; [|exact HQ]. unfold any. cbn [snd app fst]. now rewrite blen_1. Qed.
Lemma skipn_app_exact {A} (a b : list A) : skipn (List.length a) (a ++ b) = b.
Proof. induction a; cbn; auto. Qed.
Lemma firstn_app_exact {A} (a b : list A) : firstn (List.length a) (a ++ b) = a.
Proof. induction a; cbn; auto. now f_equal. Qed.
Lemma starts_with_app t r : starts_with t (t ++ r) = true.
Proof. apply starts_with_spec. eauto. Qed.
Lemma eat_tag t (Q : unit -> Prop) r : Q tt -> eat inp (tag t) t Q r.
Proof. intros HQ o _. exists tt. split; [|exact HQ]. unfold tag. cbn [snd fst]. now rewrite starts_with_app, skipn_app_exact. Qed.
(** The first character of [r], if any, does not satisfy [f]. *)
Definition ends (f : N -> bool) (r : str) : Prop := match r with [] => True | c :: _ => f c = false end.
Lemma span_app f t r : forallb f t = true -> ends f r -> span f (t ++ r) = (t, r).
Proof.
  intros Ht Hr. induction t as [|c t IH]; cbn [app].
  - destruct r as [|c r]; cbn [span]; [reflexivity|]. cbn in Hr. now rewrite Hr.
  - cbn [forallb] in Ht. apply andb_true_iff in Ht. destruct Ht as [Hc Ht]. cbn [span]. now rewrite Hc, IH.
Qed.
Lemma eat_take_while0 f t (Q : str -> Prop) r : forallb f t = true -> ends f r -> Q t -> eat inp (take_while0 f) t Q r.
Proof. intros Ht Hr HQ o _. exists t. split; [|exact HQ]. unfold take_while0. cbn [snd fst]. now rewrite span_app. Qed.
Lemma eat_take_while1 f t (Q : str -> Prop) r : t <> [] -> forallb f t = true -> ends f r -> Q t -> eat inp (take_while1 f) t Q r.
Proof.
  intros Hn Ht Hr HQ o _. exists t. split; [|exact HQ]. unfold take_while1. cbn [snd fst]. rewrite span_app by auto.
  destruct t; [contradiction|reflexivity].
Qed.
Lemma eat_eof (Q : unit -> Prop) : Q tt -> eat inp eof [] Q [].
Proof. intros HQ o _. exists tt. split; [|exact HQ]. unfold eof. cbn. now rewrite N.add_0_r. Qed.

(** ** Failure *)
Lemma miss_bind1 {A B} (p : parser A) (f : A -> parser B) s : miss inp p s -> miss inp (bind p f) s.
Proof. intros M o T. destruct (M o T) as (s' & E). exists s'. unfold bind. now rewrite E. Qed.
Lemma miss_bind2 {A B} (p : parser A) (f : A -> parser B) t P r :
  eat inp p t P r -> (forall a, P a -> miss inp (f a) r) -> miss inp (bind p f) (t ++ r).
Proof. intros H M o T. destruct (H o T) as (a & E & HP). destruct (M a HP (o + blen t) (tail_app _ _ _ _ T)) as (s' & E'). exists s'. unfold bind. now rewrite E. Qed.
Lemma miss_pmap {A B} (f : A -> B) p s : miss inp p s -> miss inp (pmap f p) s.
Proof. apply miss_bind1. Qed.
Lemma miss_alt {A} (p q : parser A) s : miss inp p s -> miss inp q s -> miss inp (alt p q) s.
Proof. intros H1 H2 o T. destruct (H1 o T) as (s1 & E1), (H2 o T) as (s2 & E2). eexists. unfold alt. now rewrite E1, E2. Qed.
Lemma miss_fail {A} s : miss inp (@fail A) s.
Proof. intros o _. eexists. reflexivity. Qed.
Lemma miss_with_span {A} (p : parser A) s : miss inp p s -> miss inp (with_span p) s.
Proof. intros M o T. destruct (M o T) as (s' & E). exists s'. unfold with_span. now rewrite E. Qed.
Lemma miss_pspan {A} (p : parser A) s : miss inp p s -> miss inp (pspan p) s.
Proof. intros M. apply miss_pmap, miss_with_span, M. Qed.
Lemma miss_with_taken {A} (p : parser A) s : miss inp p s -> miss inp (with_taken p) s.
Proof. intros M o T. destruct (M o T) as (s' & E). exists s'. unfold with_taken. now rewrite E. Qed.
Lemma miss_taken {A} (p : parser A) s : miss inp p s -> miss inp (taken p) s.
Proof. intros M. apply miss_pmap, miss_with_taken, M. Qed.
Lemma miss_verify_map1 {A B} (p : parser A) (f : A -> option B) s : miss inp p s -> miss inp (verify_map p f) s.
Proof. intros M o T. destruct (M o T) as (s' & E). exists s'. unfold verify_map. now rewrite E. Qed.
Lemma miss_verify_map2 {A B} (p : parser A) (f : A -> option B) t r : eat inp p t (fun a => f a = None) r -> miss inp (verify_map p f) (t ++ r).
Proof. intros H o T. destruct (H o T) as (a & E & HN). eexists. unfold verify_map. now rewrite E, HN. Qed.
Lemma miss_pnot {A} (p : parser A) t Q r : eat inp p t Q r -> miss inp (pnot p) (t ++ r).
Proof. intros H o T. destruct (H o T) as (a & E & _). eexists. unfold pnot. now rewrite E. Qed.
Lemma miss_peek {A} (p : parser A) s : miss inp p s -> miss inp (peek p) s.
Proof. intros M o T. destruct (M o T) as (s' & E). eexists. unfold peek. now rewrite E. Qed.
Lemma miss_one_of f s : ends f s -> miss inp (one_of f) s.
Proof. intros H o _. exists (o, s). unfold one_of. cbn [snd]. destruct s as [|c s]; [reflexivity|]. cbn in H. now rewrite H. Qed.
Lemma miss_char c s : ends (N.eqb c) s -> miss inp (char c) s.
Proof. apply miss_one_of. Qed.
Lemma miss_any : miss inp any [].
Proof. intros o _. eexists. reflexivity. Qed.
Lemma miss_tag t s : starts_with t s = false -> miss inp (tag t) s.
Proof. intros H o _. eexists. unfold tag. cbn [snd]. now rewrite H. Qed.
Lemma miss_take_while1 f s : ends f s -> miss inp (take_while1 f) s.
Proof. intros H o _. eexists. unfold take_while1. cbn [snd]. pose proof (span_app f [] s eq_refl H) as E. cbn [app] in E. rewrite E. reflexivity. Qed.

(** ** Repetition *)
Lemma many_loop_nil {A} (p : parser A) n s : miss inp p s -> forall o, tail_at inp o s -> many_loop (S n) p (mk o s) = POk [] (mk o s).
Proof. intros M o T. destruct (M o T) as (s' & E). cbn [many_loop]. now rewrite E. Qed.
Lemma eat_many0_nil {A} (p : parser A) (Q : list A -> Prop) r : miss inp p r -> Q [] -> eat inp (many0 p) [] Q r.
Proof. intros M HQ o T. exists []. split; [|exact HQ]. unfold many0. cbn [app blen] in *. rewrite (many_loop_nil p _ r M) by exact T. rewrite N.add_0_r. reflexivity. Qed.
(** The loop with any sufficient bound. *)
Definition eat_loop (inp : str) {A} (p : parser A) (t : str) (Q : list A -> Prop) (r : str) : Prop :=
  forall n o, tail_at inp o (t ++ r) -> (List.length t < n)%nat -> exists l, many_loop n p (mk o (t ++ r)) = POk l (mk (o + blen t) r) /\ Q l.
Lemma eat_loop_nil {A} (p : parser A) (Q : list A -> Prop) r : miss inp p r -> Q [] -> eat_loop inp p [] Q r.
Proof.
  intros M HQ [|n] o T Hn; [inversion Hn|]. exists []. split; [|exact HQ]. cbn [app blen] in *. rewrite (many_loop_nil p _ r M) by exact T. rewrite N.add_0_r. reflexivity.
Qed.
Lemma eat_loop_cons {A} (p : parser A) t1 t2 (P : A -> Prop) (Q : list A -> Prop) r : t1 <> [] ->
  eat inp p t1 P (t2 ++ r) -> (forall a, P a -> eat_loop inp p t2 (fun l => Q (a :: l)) r) -> eat_loop inp p (t1 ++ t2) Q r.
Proof.
  intros Hne H1 H2 [|n] o T Hn; [inversion Hn|]. rewrite <- app_assoc in T. destruct (H1 o T) as (a & E & HP). rewrite app_length in Hn.
  assert (List.length t1 <> 0)%nat by (destruct t1; [contradiction|discriminate]).
  destruct (H2 a HP n (o + blen t1) (tail_app _ _ _ _ T)) as (l & E' & HQ); [lia|]. exists (a :: l). split; [|exact HQ].
  cbn [many_loop]. rewrite <- app_assoc, E. cbn [snd].
  destruct (Nat.eqb_spec (List.length (t2 ++ r)) (List.length (t1 ++ t2 ++ r))) as [F|_]; [rewrite !app_length in F; lia|].
  rewrite E', blen_app, N.add_assoc. reflexivity.
Qed.
Lemma eat_many0 {A} (p : parser A) t Q r : eat_loop inp p t Q r -> eat inp (many0 p) t Q r.
Proof. intros H o T. unfold many0. cbn [snd]. apply H; [exact T|]. rewrite app_length. lia. Qed.
Lemma eat_many1 {A} (p : parser A) t1 t2 (P : A -> Prop) (Q : list A -> Prop) r :
  eat inp p t1 P (t2 ++ r) -> (forall a, P a -> eat_loop inp p t2 (fun l => Q (a :: l)) r) -> eat inp (many1 p) (t1 ++ t2) Q r.
Proof.
  intros H1 H2. unfold many1. apply (eat_bind _ _ _ _ P); [exact H1|]. intros a HP.
  apply (eat_bind' _ _ t2 t2 [] (fun l => Q (a :: l))); [now rewrite app_nil_r|rewrite app_nil_l; apply eat_many0; auto|].
  intros l HQ. now apply eat_ret.
Qed.
Lemma miss_many1 {A} (p : parser A) s : miss inp p s -> miss inp (many1 p) s.
Proof. apply miss_bind1. Qed.
End Eat.

(** * Reading printed trees: the decor that the parser leaves on the nodes *)
From Coq Require Import NArith ZArith Arith Bool String List Lia.
From Verif Require Import Res Str Dec NumberModel PrimModel PrimProofs EAst EncModel ParseBase ParseModel ParseLemmas PrattSpec PrattProofs Grammar ParseSoundRec ParseTop Eat EatLeaf EatExpr
  BackSpec SameSpec BackLex.
Import ListNotations.
Open Scope N_scope.

(** ** Results of a parser *)
Definition gives {A} (p : parser A) (P : A -> Prop) : Prop := forall s a s', p s = POk a s' -> P a.
Lemma gives_ret {A} (a : A) (P : A -> Prop) : P a -> gives (ret a) P.
Proof. intros H s x s' [= <- <-]. exact H. Qed.
Lemma gives_fail {A} (P : A -> Prop) : gives fail P.
Proof. intros s x s' H. discriminate H. Qed.
Lemma gives_bind {A B} (p : parser A) (f : A -> parser B) P Q : gives p P -> (forall a, P a -> gives (f a) Q) -> gives (bind p f) Q.
Proof. intros Hp H s x s'. unfold bind. destruct (p s) as [a s1| | |] eqn:E; try discriminate. intros E'. exact (H a (Hp _ _ _ E) _ _ _ E'). Qed.
Lemma gives_any {A} (p : parser A) : gives p (fun _ => True).
Proof. intros s a s' _. exact I. Qed.
Lemma gives_seq {A B} (p : parser A) (f : A -> parser B) Q : (forall a, gives (f a) Q) -> gives (bind p f) Q.
Proof. intros H. apply (gives_bind p f (fun _ => True)); [apply gives_any|auto]. Qed.
Lemma gives_pmap {A B} (f : A -> B) (p : parser A) P : gives p (fun a => P (f a)) -> gives (pmap f p) P.
Proof. intros H. unfold pmap. apply (gives_bind p _ _ _ H). intros a Ha. now apply gives_ret. Qed.
Lemma gives_map {A B} (f : A -> B) (p : parser A) (P : B -> Prop) : (forall a, P (f a)) -> gives (pmap f p) P.
Proof. intros H. apply gives_pmap. intros s a s' _. apply H. Qed.
Lemma gives_alt {A} (p q : parser A) P : gives p P -> gives q P -> gives (alt p q) P.
Proof.
  intros Hp Hq s a s'. unfold alt. destruct (p s) as [x s1|[|] s1| |] eqn:E; try discriminate.
  - intros [= <- <-]. eauto.
  - destruct (q s) as [x s2|[|] s2| |] eqn:E2; try discriminate. intros [= <- <-]. eauto.
Qed.
Lemma gives_cut {A} (p : parser A) P : gives p P -> gives (cut p) P.
Proof. intros Hp s a s'. unfold cut. destruct (p s) as [x s1|c s1| |] eqn:E; try discriminate. intros [= <- <-]. eauto. Qed.
Lemma gives_span {A} (p : parser A) (P : A -> Prop) : gives p P -> gives (with_span p) (fun x => P (fst x)).
Proof. intros Hp s a s'. unfold with_span. destruct (p s) as [x s1|c s1| |] eqn:E; try discriminate. intros [= <- <-]. cbn. eauto. Qed.
Lemma gives_eat inp {A} (p : parser A) t (Q P : A -> Prop) r : eat inp p t Q r -> gives p P -> eat inp p t (fun a => Q a /\ P a) r.
Proof. intros H G o T. destruct (H o T) as (a & E & HQ). exists a. split; [exact E|]. split; [exact HQ|]. exact (G _ _ _ E). Qed.

(** ** Expressions come without decor of their own

    The exception is [{for ... => ...}] with grouping and without condition: what follows the dots
    becomes a suffix of the whole expression (parser/expr.rs:451-485). *)
Definition bald (e : xexpr) : Prop := d_prefix (m_decor (x_meta e)) = None /\ (lone e -> d_suffix (m_decor (x_meta e)) = None).
Lemma lone_upd f e : lone (x_upd f e) <-> lone e.
Proof. destruct e; reflexivity. Qed.
Lemma x_meta_upd f e : x_meta (x_upd f e) = f (x_meta e).
Proof. destruct e; reflexivity. Qed.
Lemma bald_span sp e : bald e -> bald (x_upd (set_span sp) e).
Proof. unfold bald. rewrite x_meta_upd, lone_upd. auto. Qed.
Lemma bald_new e : m_decor (x_meta e) = no_decor -> bald e.
Proof. intros H. unfold bald. rewrite H. auto. Qed.

Section Bald.
Context (u : unicode) (b : build) (pf : str -> f64).
Notation Rn n := (recs_at u b pf pratt_group items_insert n).
Notation startp n nl := (term_start u b pf items_insert (Rn n) nl).
Notation termp n nl := (expr_term u b pf items_insert (Rn n) nl).
Notation exprp n nl := (pexpr u b pf pratt_group items_insert (Rn n) nl).
Ltac new := apply bald_new; reflexivity.
Lemma keyword_bald x : bald (keyword x).
Proof. unfold keyword. repeat match goal with |- context[if ?c then _ else _] => destruct c end; new. Qed.
Lemma object_loop_bald n k acc : gives (object_loop items_insert (Rn n) k acc) bald.
Proof.
  revert acc. induction k as [|k IH]; intros acc; cbn [object_loop].
  - intros s a s' H. discriminate H.
  - apply gives_seq. intros tr. apply gives_seq. intros c. destruct (c =? 125); [apply gives_ret; new|]. apply gives_seq. intros [i [|]]; [apply gives_ret; new|apply IH].
Qed.
Lemma for_or_bald {A} (f i : parser A) P : gives f P -> gives i P -> gives (for_expr_or_items f i) P.
Proof. intros Hf Hi s a s'. unfold for_expr_or_items. destruct (bind _ _ _); try discriminate; eauto. Qed.
Lemma start_bald n nl : gives (startp n nl) (fun p => bald (fst p)).
Proof.
  unfold term_start. apply gives_seq. intros c.
  destruct (c =? 34). { apply gives_pmap. cbn [fst]. unfold stringlike. apply gives_alt; apply gives_map; intros; new. }
  destruct (c =? 91).
  { apply gives_pmap. cbn [fst]. unfold array. apply gives_seq. intros _. apply (gives_bind _ _ bald).
    - apply for_or_bald.
      + unfold for_list_expr. apply gives_seq. intros [im [[kv vv] coll]]. do 2 (apply gives_seq; intros ?). apply gives_ret. new.
      + unfold array_items. do 3 (apply gives_seq; intros ?). apply gives_ret. new.
    - intros e He. apply gives_seq. intros _. now apply gives_ret. }
  destruct (c =? 123).
  { unfold object. apply gives_seq. intros _. apply (gives_bind _ _ (fun p => bald (fst p))).
    - apply for_or_bald.
      + unfold for_object_expr. apply gives_seq. intros [im [[kv vv] coll]]. do 3 (apply gives_seq; intros ?). apply gives_seq. intros g. apply gives_seq. intros co.
        apply gives_ret. cbn [fst]. destruct g as [t|]; [destruct co as [co|]|]; try new. split; [reflexivity|]. intros [].
      + apply gives_pmap. cbn [fst]. intros s. apply object_loop_bald.
    - intros e He. apply gives_seq. intros _. now apply gives_ret. }
  destruct (is_digit c). { apply gives_pmap. cbn [fst]. unfold number_expr. apply gives_seq. intros [k t]. apply gives_ret. new. }
  destruct (c =? 60).
  { apply gives_pmap. cbn [fst]. unfold heredoc. apply gives_seq. intros [i d]. apply gives_seq. intros [es s]. do 2 (apply gives_seq; intros ?). apply gives_ret.
    destruct (if i then tpl_dedent es else (es, None)). new. }
  assert (HU : gives (pmap (fun e => (e, nl)) (unary_op (Rn n) nl)) (fun p => bald (fst p))).
  { apply gives_pmap. cbn [fst]. unfold unary_op. apply gives_seq. intros [o s]. apply gives_seq. intros e. apply gives_ret. new. }
  destruct (c =? 45).
  { apply gives_pmap. cbn [fst]. apply gives_alt.
    - unfold neg_number. apply gives_seq. intros [k t]. apply gives_seq. intros k'. apply gives_ret. new.
    - unfold unary_op. apply gives_seq. intros [o s]. apply gives_seq. intros e. apply gives_ret. new. }
  destruct (c =? 33); [exact HU|].
  destruct (c =? 40). { apply gives_pmap. cbn [fst]. unfold parenthesis. do 3 (apply gives_seq; intros ?). apply gives_ret. new. }
  destruct (is_id_start u c); [|apply gives_cut, gives_fail].
  unfold identlike. apply gives_seq. intros [x xs] s1 a s'. revert a s'. generalize s1 at 2. intros s2. revert s2. 
  assert (G : gives (fun s => (suffix <- pspan (ws_or_sp nl) ;; b0 <- look2 ;;
       (if opt_seqb b0 (lit "::") || head_is (N.eqb 40) b0 then
         let i := Did (set_span xs (set_suffix (raw_of_span suffix) no_meta)) x in
         '(ns, name) <-
            (if opt_seqb b0 (lit "::") then
               l <- func_namespace_components u nl ;;
               lift (match rev l with n :: r => Done (i :: rev r, n) | [] => Panic end)
             else ret ([], i)) ;;
         '(l, ex, co, tr) <- func_args (Rn n) ;;
         ret (XCall no_meta ns name no_meta l ex co tr, true)
       else fun _ => POk (keyword x, nl) s1)) s) (fun p => bald (fst p))).
  { intros s. apply gives_seq. intros sf. apply gives_seq. intros b0. destruct (opt_seqb b0 (lit "::") || head_is (N.eqb 40) b0).
    - cbv zeta. apply gives_seq. intros [ns name]. apply gives_seq. intros [[[l ex] co] tr]. apply gives_ret. new.
    - intros s0 a s' [= <- <-]. apply keyword_bald. }
  intros s2. exact (G s2).
Qed.
Lemma term_bald n nl : gives (termp n nl) (fun p => bald (fst p)).
Proof.
  unfold expr_term. apply gives_seq. intros st. apply (gives_bind _ _ (fun p => bald (fst (fst p)))).
  { apply (gives_span _ (fun p => bald (fst p))). apply start_bald. }
  intros [[e nl'] s] He. cbn [fst] in He. intros s1. generalize s1 at 2. intros s2 a s'. revert s2 a s'.
  change (gives (suffix <- pspan (ws_or_sp nl') ;; b0 <- look2 ;;
       (if negb (opt_seqb b0 (lit "..")) && head_is (fun c => (c =? 46) || (c =? 91)) b0 then
         '(ops, s9) <- with_span (traversal u (Rn n) nl') ;;
         ret (x_upd (set_span (st, snd s9))
                (XTrav no_meta (x_upd (set_suffix (raw_of_span suffix)) (x_upd (set_span s) e)) ops), nl')
       else fun _ => POk (x_upd (set_span s) e, nl') s1)) (fun p => bald (fst p))).
  apply gives_seq. intros sf. apply gives_seq. intros b0. destruct (negb _ && _).
  - apply gives_seq. intros [ops sp]. apply gives_ret. new.
  - intros s0 a s' [= <- <-]. now apply bald_span.
Qed.
Definition tbald (t : optree xexpr oper) : Prop := match t with Leaf e => bald e | Node _ _ _ => True end.
Lemma tree_bald t : tbald t -> bald (tree_expr t).
Proof. destruct t as [e|l o r]; [auto|]. intros _. cbn [tree_expr]. unfold infix_expr. apply bald_new. cbn [x_meta]. destruct (m_span _); [destruct (m_span _)|]; reflexivity. Qed.
Lemma group_bald e ops x : bald e -> pratt_group e ops = Some x -> bald x.
Proof.
  intros He E. destruct (pratt_group_spec e ops) as (tr & rem & Eg & Hg & Hh & Htl & Hrem). rewrite Eg in E. injection E as <-. apply tree_bald. destruct tr; [|exact I].
  cbn [head] in Hh. cbn. now rewrite Hh.
Qed.
Lemma expr_loop_bald n k nl st e : bald e -> gives (fun s => expr_loop pratt_group (Rn n) k nl st e s) bald.
Proof.
  revert e. induction k as [|k IH]; intros e He s1; cbn [expr_loop]; [intros a s' H; discriminate H|].
  generalize s1 at 3. intros s2 a s'. revert s2 a s'.
  change (gives (suffix <- pspan (ws_or_sp nl) ;; b0 <- look2 ;;
         (if head_is (N.eqb 63) b0 then
           '((t, f), s) <- with_span (conditional (Rn n) nl) ;;
           ret (x_upd (set_span (st, snd s))
                  (XCond no_meta (x_upd (set_suffix (raw_of_span suffix)) e) t f))
         else if binop_ahead b0 then
           fun _ =>
             ('(ops, s) <- with_span (binary_ops (Rn n) nl) ;;
              match pratt_group e ops with
              | Some e => fun s0 => expr_loop pratt_group (Rn n) k nl st (x_upd (set_span (st, snd s)) e) s0
              | None => fun _ => PFuel
              end) s1
         else fun _ => POk e s1)) bald).
  apply gives_seq. intros sf. apply gives_seq. intros b0. destruct (head_is _ b0).
  { apply gives_seq. intros [[t f] sp]. apply gives_ret. new. }
  destruct (binop_ahead b0); [|intros s0 a s' [= <- <-]; exact He].
  intros s0. generalize s0. revert s1. intros s1 _ a s'. revert s1 a s'.
  change (gives ('(ops, s) <- with_span (binary_ops (Rn n) nl) ;;
              match pratt_group e ops with
              | Some e => fun s0 => expr_loop pratt_group (Rn n) k nl st (x_upd (set_span (st, snd s)) e) s0
              | None => fun _ => PFuel
              end) bald).
  apply gives_seq. intros [ops sp]. destruct (pratt_group e ops) as [x|] eqn:E; [|intros s a s' H; discriminate H].
  apply IH, bald_span. eapply group_bald; eauto.
Qed.
Lemma expr_bald n nl : gives (exprp n nl) bald.
Proof.
  unfold pexpr. apply gives_seq. intros st. apply (gives_bind _ _ (fun p => bald (fst p))); [apply term_bald|]. intros [e nl'] He s. now apply expr_loop_bald.
Qed.
Lemma r_expr_bald n nl : gives (r_expr (Rn n) nl) bald.
Proof. destruct n as [|n]; [intros s a s' H; discriminate H|]. apply expr_bald. Qed.
Lemma r_term_bald n nl : gives (r_term (Rn n) nl) bald.
Proof. destruct n as [|n]; [intros s a s' H; discriminate H|]. apply gives_pmap. apply term_bald. Qed.
End Bald.

(** ** Decor taken from the input *)
Section Wears.
Context (inp : str).
(** The raw string is a place in the input where the text is [w]. *)
Definition from (w : str) (r : raw) : Prop :=
  raw_despan inp r = raw_of_str w /\ forall d, raw_enc r d = match w with [] => [] | _ => d end.
Definition put (a : option str) (r : option raw) : Prop :=
  match a, r with None, None => True | Some w, Some r => from w r | _, _ => False end.
Definition wears (a z : option str) (m : meta) : Prop := put a (d_prefix (m_decor m)) /\ put z (d_suffix (m_decor m)).

Lemma from_at o w : at_ inp o w -> from w (rw o w).
Proof.
  intros H. split; [now apply despan_rw|]. intros d. destruct w as [|c w]; [now rewrite rw_nil|]. rewrite rw_ne by discriminate. reflexivity.
Qed.
Lemma tail_at_at o w r : tail_at inp o (w ++ r) -> at_ inp o w.
Proof. intros (pr & -> & E). exists pr, r. auto. Qed.
Lemma from_tail o w r : tail_at inp o (w ++ r) -> from w (raw_of_span (o, o + blen w)).
Proof. intros H. exact (from_at o w (tail_at_at o w r H)). Qed.
Lemma eat_span_from {A} (p : parser A) t (Q : bspan -> Prop) r : eat inp p t (fun _ => True) r ->
  (forall sp, from t (raw_of_span sp) -> Q sp) -> eat inp (pspan p) t Q r.
Proof. intros H HQ. apply eat_pspan_at; [exact H|]. intros o T. apply HQ. eapply from_tail, T. Qed.
Lemma raw_of_str_enc w d : raw_enc (raw_of_str w) d = w.
Proof. destruct w; reflexivity. Qed.

(** What is printed around a node. *)
Notation Dm := (meta_map (raw_despan inp)).
Definition worn (a : option str) (d : str) : str := match a with Some w => w | None => d end.
Lemma wears_pre df a z m : wears a z m -> pre df (Dm m) = worn a (fst df).
Proof.
  intros [H _]. unfold pre, enc_prefix, meta_map, decor_map. cbn [m_decor d_prefix]. destruct a as [w|], (d_prefix (m_decor m)) as [r|]; cbn in *; try contradiction; [|reflexivity].
  destruct H as [-> _]. apply raw_of_str_enc.
Qed.
Lemma wears_suf df a z m : wears a z m -> suf df (Dm m) = worn z (snd df).
Proof.
  intros [_ H]. unfold suf, enc_suffix, meta_map, decor_map. cbn [m_decor d_suffix]. destruct z as [w|], (d_suffix (m_decor m)) as [r|]; cbn in *; try contradiction; [|reflexivity].
  destruct H as [-> _]. apply raw_of_str_enc.
Qed.
Lemma wears_around df a z m t : wears a z m -> around df (Dm m) t = worn a (fst df) ++ t ++ worn z (snd df).
Proof. intros H. unfold around. now rewrite (wears_pre df a z m H), (wears_suf df a z m H). Qed.
(** The same for decor which [despan] does not reach. *)
Definition left_as (a : option str) (d : str) : str := match a with Some [] => [] | _ => d end.
Lemma leave_m (m : meta) : meta_map (fun r => r) m = m.
Proof. destruct m as [[[p|] [s|]] sp]; reflexivity. Qed.
Lemma wears_left df a z m t : wears a z m -> around df (meta_map (fun r => r) m) t = left_as a (fst df) ++ t ++ left_as z (snd df).
Proof.
  rewrite leave_m. intros [H1 H2]. unfold around, pre, suf, enc_prefix, enc_suffix. f_equal; [|f_equal].
  - destruct a as [w|], (d_prefix (m_decor m)) as [r|]; cbn in *; try contradiction; [|reflexivity]. rewrite (proj2 H1). destruct w; reflexivity.
  - destruct z as [w|], (d_suffix (m_decor m)) as [r|]; cbn in *; try contradiction; [|reflexivity]. rewrite (proj2 H2). destruct w; reflexivity.
Qed.
End Wears.

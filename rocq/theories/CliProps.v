(** * C40: hcl2json bulk conversion

    "The result of a bulk conversion contains, in path order, exactly one entry per successfully
    converted file; with [continue_on_error] a failing file removes only itself, without it any failure
    fails the run; results do not depend on the parallel schedule."

    [bulk_convert a l r w] is the relation between a run over the files [l] and the outcomes [r] that
    some schedule leads to. *)
From Coq Require Import NArith ZArith Bool String List Permutation.
From Verif Require Import Str NumberModel PrimModel Ast EvalModel ParseBase ParseModel ParseProps DeModel CliModel CliSpec CliProofs.
From Verif Require MapModel.
Import ListNotations.
Open Scope list_scope.

Section Lemmas.
  Context (u : unicode) (b : build) (pf : str -> f64) (sf : f64 -> str) (n : nat) (read : str -> option str) (a : args).
  Notation one := (one u b pf sf n read a).
  Notation process := (process_file u b pf sf n read a).
  Notation run := (bulk_convert u b pf sf n read a).
  Notation expected := (expected u b pf sf n read a).
  Definition val (p : str) : value := match one p with OOk v => v | _ => VNull end.
  Definition ok (p : str) : bool := match one p with OOk _ => true | _ => false end.
  Lemma process_one p : process p = match one p with OOk v => POk (p, v) | OErr => PErr p | _ => PPanic end.
  Proof. reflexivity. Qed.
  Lemma results_map l : ok_results process l = map (fun p => (p, val p)) (filter ok l).
  Proof.
    unfold ok_results, ok, val. induction l as [|p l IH]; [reflexivity|]. cbn [flat_map filter]. rewrite process_one, IH.
    destruct (one p) eqn:E; cbn [app map]; try reflexivity. now rewrite E.
  Qed.
  Lemma entries_map l : entries u b pf sf n read a l = map (fun p => (p, val p)) (filter ok (firsts l)).
  Proof.
    unfold entries, ok, val. induction (firsts l) as [|p m IH]; [reflexivity|]. cbn [flat_map filter]. rewrite IH.
    destruct (one p) eqn:E; cbn [app map]; try reflexivity. now rewrite E.
  Qed.
  Lemma values_map l : values u b pf sf n read a l = map val (filter ok l).
  Proof.
    unfold values, ok, val. induction l as [|p m IH]; [reflexivity|]. cbn [flat_map filter]. rewrite IH.
    destruct (one p) eqn:E; cbn [app map]; try reflexivity. now rewrite E.
  Qed.
  Lemma bulk_expected l : bulk_value a (ok_results process l) = expected l.
  Proof.
    unfold bulk_value, CliSpec.expected. rewrite results_map, entries_map, values_map. destruct (a_file_paths a).
    - now rewrite from_iter_pg, firsts_filter.
    - now rewrite map_map.
  Qed.
  Lemma failing_eq l : failing process l = unconvertible u b pf sf n read a l.
  Proof. unfold failing, unconvertible. apply filter_ext. intros p. rewrite process_one. now destruct (one p). Qed.
  Lemma no_panic l : never_crashes u b pf sf n read a l -> forall p, In p l -> process p <> PPanic.
  Proof. intros H p Hp. rewrite process_one. destruct (H p Hp) as [E|(v & E)]; rewrite E; discriminate. Qed.
  Lemma convertible_ok p : convertible u b pf sf n read a p <-> succeeds process p.
  Proof.
    unfold convertible, succeeds. rewrite process_one. split; [intros (v & E); rewrite E; eauto|].
    destruct (one p) eqn:E; intros (y & H); try discriminate. eauto.
  Qed.

  Lemma run_continue l r w : a_continue a = true -> never_crashes u b pf sf n read a l -> run l r w ->
    r = Written (expected l) /\ Permutation w (unconvertible u b pf sf n read a l).
  Proof.
    intros Hc Hn [r0 w0 H]. rewrite Hc in H. destruct (continue_ok _ _ _ _ H (no_panic l Hn)) as [-> Hw].
    rewrite bulk_expected. now rewrite <- failing_eq.
  Qed.
  Lemma run_all l r w : (forall p, In p l -> convertible u b pf sf n read a p) -> run l r w ->
    r = Written (expected l).
  Proof.
    intros Hall Hr. destruct (a_continue a) eqn:Hc.
    - apply (run_continue l r w); auto. intros p Hp. right. auto.
    - destruct Hr as [r0 w0 H]. rewrite Hc in H. rewrite (result_ok _ _ _ _ H); [now rewrite bulk_expected|].
      intros p Hp. apply convertible_ok. auto.
  Qed.
  Lemma run_fail l r w p : a_continue a = false -> In p l -> ~ convertible u b pf sf n read a p -> run l r w ->
    forall v, r <> Written v.
  Proof.
    intros Hc Hp Hn [r0 w0 H] v. rewrite Hc in H. rewrite convertible_ok in Hn.
    destruct (result_fail _ _ _ _ _ H Hp Hn) as [(e & y & -> & _)|[-> _]]; discriminate.
  Qed.
  Lemma run_failed l r w p : a_continue a = false -> In p l -> ~ convertible u b pf sf n read a p ->
    never_crashes u b pf sf n read a l -> run l r w -> r = Failed.
  Proof.
    intros Hc Hp Hn Hk [r0 w0 H]. rewrite Hc in H. rewrite convertible_ok in Hn.
    destruct (result_fail _ _ _ _ _ H Hp Hn) as [(e & y & -> & _)|[-> (y & Hy & E)]]; [reflexivity|].
    destruct (no_panic l Hk y Hy E).
  Qed.
  Lemma dec_all l : never_crashes u b pf sf n read a l ->
    (forall p, In p l -> convertible u b pf sf n read a p) \/ (exists p, In p l /\ ~ convertible u b pf sf n read a p).
  Proof.
    intros Hk. destruct (forallb ok l) eqn:E.
    - left. intros p Hp. rewrite forallb_forall in E. specialize (E p Hp). unfold ok in E. unfold convertible.
      destruct (one p); try discriminate. eauto.
    - right. assert (exists p, In p l /\ ok p = false) as (p & Hp & Ep).
      { clear Hk. induction l as [|x l IH]; [discriminate|]. cbn in E. destruct (ok x) eqn:Ex; [|exists x; split; [now left|exact Ex]].
        destruct (IH E) as (p & Hp & Ep). exists p. split; [now right|exact Ep]. }
      exists p. split; [exact Hp|]. intros (v & Ev). unfold ok in Ep. now rewrite Ev in Ep.
  Qed.
  Lemma run_unique l r w r' w' : never_crashes u b pf sf n read a l -> run l r w -> run l r' w' ->
    r = r' /\ Permutation w w'.
  Proof.
    intros Hk H H'. destruct (a_continue a) eqn:Hc.
    - destruct (run_continue _ _ _ Hc Hk H) as [-> Hw], (run_continue _ _ _ Hc Hk H') as [-> Hw'].
      split; [reflexivity|]. now rewrite Hw, Hw'.
    - assert (w = [] /\ w' = []) as [-> ->].
      { destruct H as [r0 w0 H], H' as [r1 w1 H']. rewrite Hc in H, H'. split; [now inversion H|now inversion H']. }
      split; [|reflexivity]. destruct (dec_all l Hk) as [Ha|(p & Hp & Hn)].
      + now rewrite (run_all _ _ _ Ha H), (run_all _ _ _ Ha H').
      + now rewrite (run_failed _ _ _ _ Hc Hp Hn Hk H), (run_failed _ _ _ _ Hc Hp Hn Hk H').
  Qed.
  Lemma run_exists l : exists r w, run l r w.
  Proof. destruct (collected_total process (a_continue a) l) as (r & w & H). eexists _, _. constructor. exact H. Qed.
  Lemma run_crash l r w p : a_continue a = true -> In p l -> (one p = OPanic \/ one p = OFuel) -> run l r w -> r = Crashed.
  Proof.
    intros Hc Hp Ho [r0 w0 H]. rewrite Hc in H.
    assert (E : process p = PPanic) by (rewrite process_one; destruct Ho as [E|E]; now rewrite E).
    now rewrite (continue_crash _ _ _ _ _ H Hp E).
  Qed.
  Lemma entries_keys l : NoDup (map fst (entries u b pf sf n read a l)).
  Proof.
    rewrite entries_map, map_map. cbn [fst]. rewrite map_id. apply NoDup_filter, firsts_nodup.
  Qed.
  Lemma entries_in l p v : In (p, v) (entries u b pf sf n read a l) <-> In p l /\ one p = OOk v.
  Proof.
    rewrite entries_map, in_map_iff. split.
    - intros (q & E & Hq). apply filter_In in Hq as [Hq Ho]. injection E as -> <-. apply (proj1 (firsts_in _ _)) in Hq. split; [exact Hq|].
      unfold ok in Ho. unfold val. now destruct (one p).
    - intros [Hp E]. exists p. unfold val. rewrite E. split; [reflexivity|]. apply filter_In. split; [now apply firsts_in|].
      unfold ok. now rewrite E.
  Qed.
End Lemmas.

(** With [continue_on_error]: whatever the schedule, the output is the value of every file that can be
    converted, in path order, and exactly the files that cannot be converted are warned about. *)
Theorem C40_continue_partial : forall u b pf sf n read a l r w,
  a_continue a = true ->
  never_crashes u b pf sf n read a l ->
  bulk_convert u b pf sf n read a l r w ->
  r = Written (expected u b pf sf n read a l) /\
  Permutation w (unconvertible u b pf sf n read a l).
Proof. exact run_continue. Qed.

(** Without failures, in both modes. *)
Theorem C40_all : forall u b pf sf n read a l r w,
  (forall p, In p l -> convertible u b pf sf n read a p) ->
  bulk_convert u b pf sf n read a l r w ->
  r = Written (expected u b pf sf n read a l).
Proof. exact run_all. Qed.

(** Without [continue_on_error] nothing is written if some file cannot be converted. *)
Theorem C40_failure : forall u b pf sf n read a l r w p,
  a_continue a = false -> In p l -> ~ convertible u b pf sf n read a p ->
  bulk_convert u b pf sf n read a l r w ->
  forall v, r <> Written v.
Proof. exact run_fail. Qed.

(** The result does not depend on the schedule; the warnings only in their order. *)
Theorem C40_schedule : forall u b pf sf n read a l r w r' w',
  never_crashes u b pf sf n read a l ->
  bulk_convert u b pf sf n read a l r w -> bulk_convert u b pf sf n read a l r' w' ->
  r = r' /\ Permutation w w'.
Proof. exact run_unique. Qed.

(** Every schedule ends: no infinite sequence of steps, and a step is possible until all is done. *)
Theorem C40_terminates : forall u b pf sf n read a,
  let f := process_file u b pf sf n read a in
  well_founded (fun c c' => pstep (work_continue f) (fst c') (snd c') (fst c) (snd c)) /\
  well_founded (fun c c' => pstep (work_result f) (fst c') (snd c') (fst c) (snd c)) /\
  (forall t s, pdone t = false -> exists t' s', pstep (work_continue f) t s t' s') /\
  (forall t s, pdone t = false -> exists t' s', pstep (work_result f) t s t' s') /\
  (forall l, exists r w, bulk_convert u b pf sf n read a l r w).
Proof.
  intros u b pf sf n read a f.
  refine (conj (terminates _ (wc_shape f)) (conj (terminates _ (wr_shape f)) (conj _ (conj _ _)))).
  - exact (progress _ (wc_go f)).
  - exact (progress _ (wr_go f)).
  - exact (run_exists u b pf sf n read a).
Qed.

(** [--file-paths]: one entry for each file converted. *)
Theorem C40_entries : forall u b pf sf n read a l,
  NoDup (map fst (entries u b pf sf n read a l)) /\
  (forall p v, In (p, v) (entries u b pf sf n read a l) <-> In p l /\ one u b pf sf n read a p = OOk v) /\
  (NoDup l -> map snd (entries u b pf sf n read a l) = values u b pf sf n read a l).
Proof.
  intros u b pf sf n read a l. split; [apply entries_keys|]. split; [apply entries_in|].
  intros Hd. rewrite entries_map, values_map, firsts_id by exact Hd. now rewrite map_map.
Qed.

(** The whole program. *)
Theorem C40_main_schedule : forall u b pf sf n read stdin is_dir is_file walk build_glob a r w r' w',
  (forall l, expand is_dir is_file walk build_glob a (a_paths a) = Some l -> never_crashes u b pf sf n read a l) ->
  main u b pf sf n read stdin is_dir is_file walk build_glob a r w ->
  main u b pf sf n read stdin is_dir is_file walk build_glob a r' w' ->
  r = r' /\ Permutation w w'.
Proof.
  intros u b pf sf n read stdin is_dir is_file walk build_glob a r w r' w' Hk H H'.
  destruct H as [Hs|p Hp Hd Hf|N1 N2 N3 He|l r w N1 N2 N3 He Hb].
  - destruct H' as [Hs'|p' Hp' Hd' Hf'|N1' N2' N3' He'|l' r' w' N1' N2' N3' He' Hb']; [split; reflexivity| | |].
    + destruct Hs as [Hs|Hs]; rewrite Hs in Hp'; [discriminate|]. injection Hp' as <-. now destruct Hd'.
    + destruct Hs; congruence.
    + destruct Hs; congruence.
  - destruct H' as [Hs'|p' Hp' Hd' Hf'|N1' N2' N3' He'|l' r' w' N1' N2' N3' He' Hb'].
    + destruct Hs' as [Hs'|Hs']; rewrite Hs' in Hp; [discriminate|]. injection Hp as <-. now destruct Hd.
    + rewrite Hp in Hp'. injection Hp' as <-. split; reflexivity.
    + rewrite (N3' p Hp) in Hf. discriminate.
    + rewrite (N3' p Hp) in Hf. discriminate.
  - destruct H' as [Hs'|p' Hp' Hd' Hf'|N1' N2' N3' He'|l' r' w' N1' N2' N3' He' Hb'].
    + destruct Hs'; congruence.
    + rewrite (N3 p' Hp') in Hf'. discriminate.
    + split; reflexivity.
    + congruence.
  - destruct H' as [Hs'|p' Hp' Hd' Hf'|N1' N2' N3' He'|l' r' w' N1' N2' N3' He' Hb'].
    + destruct Hs'; congruence.
    + rewrite (N3 p' Hp') in Hf'. discriminate.
    + congruence.
    + rewrite He in He'. injection He' as <-. exact (run_unique u b pf sf n read a l r w r' w' (Hk l He) Hb Hb').
Qed.

(** Which files are converted: the run fails if some path cannot be expanded, and otherwise the files are
    those the paths stand for, in the order of the paths and of the listings. *)
Theorem C40_files : forall is_dir is_file walk build_glob a l,
  (expand is_dir is_file walk build_glob a l = None <-> exists p, In p l /\ unlisted is_dir walk build_glob a p) /\
  (forall fs, expand is_dir is_file walk build_glob a l = Some fs ->
    exists fss, fs = concat fss /\
      Forall2 (fun p gs => (forall q, In q gs <-> stands_for is_dir is_file walk build_glob a p q) /\
        (is_dir p = false -> gs = [p]) /\
        (is_dir p = true -> exists k, gs = filter k (fst (walk p)))) l fss).
Proof.
  intros is_dir is_file walk build_glob a. induction l as [|p l [IH1 IH2]].
  - split; [split; [discriminate|intros (p & [] & _)]|]. intros fs [= <-]. exists []. split; constructor.
  - cbn [expand]. destruct (is_dir p) eqn:Ed.
    + destruct (a_glob a) as [g|] eqn:Eg.
      2:{ split; [|discriminate]. split; [|reflexivity]. intros _. exists p. split; [now left|]. split; [exact Ed|now left]. }
      destruct (build_glob p g) as [m|] eqn:Em.
      2:{ split; [|discriminate]. split; [|reflexivity]. intros _. exists p. split; [now left|]. split; [exact Ed|]. right. left. eauto. }
      unfold glob_files. destruct (walk p) as [w err] eqn:Ew.
      destruct (err && negb (a_continue a)) eqn:Ee.
      { apply andb_prop in Ee as [-> Ec]. apply negb_true_iff in Ec. split; [|discriminate]. split; [|reflexivity].
        intros _. exists p. split; [now left|]. split; [exact Ed|]. right. right. rewrite Ew. now split. }
      split.
      * destruct (expand is_dir is_file walk build_glob a l) as [fs|] eqn:E; cbn [option_map].
        -- split; [discriminate|]. intros (q & [<-|Hq] & Hu).
           ++ destruct Hu as [_ [H|[(g' & H1 & H2)|[H1 H2]]]]; [congruence| |].
              ** rewrite Eg in H1. injection H1 as <-. congruence.
              ** rewrite Ew in H2. cbn in H2. subst err. rewrite H1 in Ee. discriminate.
           ++ assert (X : Some fs = None) by (apply IH1; eauto); discriminate X.
        -- split; [|reflexivity]. intros _. destruct (proj1 IH1 eq_refl) as (q & Hq & Hu). exists q. split; [now right|exact Hu].
      * intros fs. destruct (expand is_dir is_file walk build_glob a l) as [fs'|] eqn:E; cbn [option_map]; [|discriminate].
        intros [= <-]. destruct (IH2 _ eq_refl) as (fss & -> & Hf). exists (filter (fun q => is_file q && m q) w :: fss).
        split; [reflexivity|]. constructor; [|exact Hf]. split; [|split].
        -- intros q. unfold stands_for. rewrite Ed, Ew, filter_In, andb_true_iff. cbn [fst]. split.
           ++ intros (H1 & H2 & H3). split; [exact H1|]. split; [exact H2|]. exists g, m. auto.
           ++ intros (H1 & H2 & g' & m' & H3 & H4 & H5). rewrite Eg in H3. injection H3 as <-.
              rewrite Em in H4. injection H4 as <-. auto.
        -- congruence.
        -- intros _. rewrite Ew. eexists. reflexivity.
    + split.
      * destruct (expand is_dir is_file walk build_glob a l) as [fs|] eqn:E; cbn [option_map].
        -- split; [discriminate|]. intros (q & [<-|Hq] & Hu); [destruct Hu; congruence|]. assert (X : Some fs = None) by (apply IH1; eauto). discriminate X.
        -- split; [|reflexivity]. intros _. destruct (proj1 IH1 eq_refl) as (q & Hq & Hu). exists q. split; [now right|exact Hu].
      * intros fs. destruct (expand is_dir is_file walk build_glob a l) as [fs'|] eqn:E; cbn [option_map]; [|discriminate].
        intros [= <-]. destruct (IH2 _ eq_refl) as (fss & -> & Hf). exists ([p] :: fss). split; [reflexivity|].
        constructor; [|exact Hf]. split; [|split].
        -- intros q. unfold stands_for. rewrite Ed. cbn. split; [intros [H|[]]; now symmetry|intros ->; now left].
        -- reflexivity.
        -- congruence.
Qed.
Theorem C40_unlisted : forall u b pf sf n read stdin is_dir is_file walk build_glob a r w,
  many is_dir a -> main u b pf sf n read stdin is_dir is_file walk build_glob a r w ->
  (exists p, In p (a_paths a) /\ unlisted is_dir walk build_glob a p) -> r = Failed /\ w = [].
Proof.
  intros u b pf sf n read stdin is_dir is_file walk build_glob a r w Hm H Hu.
  apply (C40_files is_dir is_file walk build_glob a (a_paths a)) in Hu. unfold many in Hm.
  destruct H as [Hs|p Hp Hd Hf|N1 N2 N3 He|l r w N1 N2 N3 He Hb].
  - destruct Hs as [E|E]; rewrite E in Hm; [contradiction|]. now destruct Hm as [[] _].
  - rewrite Hp in Hm. destruct Hm. congruence.
  - now split.
  - congruence.
Qed.
(** ** Examples *)
(** A directory with three files, one of them unreadable, and a pattern for two of the files. *)
Definition dir_args (go_on : bool) : args := Args (Some (lit "*.hcl")) false go_on false [lit "x"; lit "d"].
Definition dir_is (p : str) : bool := seqb p (lit "d").
Definition dir_walk (err : bool) (p : str) : list str * bool := ([lit "d"; lit "d/a.hcl"; lit "d/b.txt"; lit "d/c.hcl"], err).
Definition dir_glob (d g : str) : option (str -> bool) :=
  if seqb g (lit "*.hcl") then Some (fun p => negb (seqb p (lit "d/b.txt"))) else None.
Example C40_example_dir :
  expand dir_is (fun p => negb (dir_is p)) (dir_walk true) dir_glob (dir_args true) (a_paths (dir_args true)) =
    Some [lit "x"; lit "d/a.hcl"; lit "d/c.hcl"] /\
  many dir_is (dir_args false) /\ unlisted dir_is (dir_walk true) dir_glob (dir_args false) (lit "d").
Proof. split; [vm_compute; reflexivity|]. split; [exact I|]. split; [reflexivity|]. right. right. now split. Qed.
Definition ex_sf : f64 -> str := fun _ => lit "0.5".
(** Four files; [c.hcl] is malformed, [d.hcl] does not exist. *)
Definition ex_files (p : str) : option str :=
  if seqb p (lit "a.hcl") then Some (lit "a = 1 + 2")
  else if seqb p (lit "b.hcl") then Some (lit "b ""x"" {}")
  else if seqb p (lit "c.hcl") then Some (lit "c = = 1")
  else if seqb p (lit "e.hcl") then Some (lit "a = 1 % 0")
  else None.
Definition ex_paths : list str := [lit "a.hcl"; lit "c.hcl"; lit "b.hcl"; lit "d.hcl"; lit "a.hcl"].
Definition ex_args (keyed continue simplify_ : bool) : args := Args None keyed continue simplify_ ex_paths.
Notation ex_one a p := (one ascii_unicode Release some_f64 ex_sf 3 ex_files a p).
Notation ex_run a l r w := (bulk_convert ascii_unicode Release some_f64 ex_sf 3 ex_files a l r w).

Definition ex_a : value := VObj [(lit "a", VNum (PosInt 3%Z))].
Definition ex_b : value := VObj [(lit "b", VObj [(lit "x", VObj [])])].
Example C40_example_files :
  ex_one (ex_args true true true) (lit "a.hcl") = OOk ex_a /\
  ex_one (ex_args true true true) (lit "b.hcl") = OOk ex_b /\
  ex_one (ex_args true true true) (lit "c.hcl") = OErr /\
  ex_one (ex_args true true true) (lit "d.hcl") = OErr /\
  ex_one (ex_args true true false) (lit "a.hcl") = OOk (VObj [(lit "a", VStr (lit "${1 + 2}"))]).
Proof. repeat split; vm_compute; reflexivity. Qed.
Example C40_example_never_crashes : never_crashes ascii_unicode Release some_f64 ex_sf 3 ex_files (ex_args true true true) ex_paths.
Proof.
  destruct C40_example_files as (Ea & Eb & Ec & Ed & _).
  intros p [<- | [<- | [<- | [<- | [<- | []]]]]]; unfold convertible; eauto.
Qed.
Example C40_example_expected :
  expected ascii_unicode Release some_f64 ex_sf 3 ex_files (ex_args true true true) ex_paths =
    VObj [(lit "a.hcl", ex_a); (lit "b.hcl", ex_b)] /\
  expected ascii_unicode Release some_f64 ex_sf 3 ex_files (ex_args false true true) ex_paths =
    VArr [ex_a; ex_b; ex_a].
Proof. split; vm_compute; reflexivity. Qed.
Example C40_example_run : exists w,
  ex_run (ex_args true true true) ex_paths (Written (VObj [(lit "a.hcl", ex_a); (lit "b.hcl", ex_b)])) w /\
  Permutation w [lit "c.hcl"; lit "d.hcl"].
Proof.
  destruct (proj2 (proj2 (proj2 (proj2 (C40_terminates ascii_unicode Release some_f64 ex_sf 3 ex_files (ex_args true true true))))) ex_paths)
    as (r & w & H).
  exists w. destruct (C40_continue_partial _ _ _ _ _ _ (ex_args true true true) _ _ _ eq_refl C40_example_never_crashes H) as [Hr Hw].
  rewrite (proj1 C40_example_expected) in Hr. subst r. split; [exact H|].
  replace (unconvertible _ _ _ _ _ _ _ ex_paths) with [lit "c.hcl"; lit "d.hcl"] in Hw by (vm_compute; reflexivity). exact Hw.
Qed.
(** Without [continue_on_error], which of the two errors is reported depends on the schedule. *)
Example C40_example_which_error : forall p, p = lit "c.hcl" \/ p = lit "d.hcl" ->
  collected (process_file ascii_unicode Release some_f64 ex_sf 3 ex_files (ex_args true false true)) false
    [lit "c.hcl"; lit "d.hcl"] (PErr p) [].
Proof.
  intros p Hp. set (f := process_file _ _ _ _ _ _ _).
  assert (Ec : f (lit "c.hcl") = PErr (lit "c.hcl")) by (vm_compute; reflexivity).
  assert (Ed : f (lit "d.hcl") = PErr (lit "d.hcl")) by (vm_compute; reflexivity).
  destruct Hp as [-> | ->].
  - refine (Col_result f _ (PNode (PLeaf [] []) (PLeaf [] [])) (Rshared (Some _) true false) _ eq_refl).
    eapply Psteps_cons; [exact (Psplit _ [_] [_] _ ltac:(discriminate) ltac:(discriminate))|].
    eapply Psteps_cons; [apply Pleft, Pwork, (WR_err f _ _ _ _ _ _ _ Ec)|].
    eapply Psteps_cons; [apply Pright, Pwork, (WR_err f _ _ _ _ _ _ _ Ed)|]. apply Psteps_nil.
  - refine (Col_result f _ (PNode (PLeaf [] []) (PLeaf [] [])) (Rshared (Some _) true false) _ eq_refl).
    eapply Psteps_cons; [exact (Psplit _ [_] [_] _ ltac:(discriminate) ltac:(discriminate))|].
    eapply Psteps_cons; [apply Pright, Pwork, (WR_err f _ _ _ _ _ _ _ Ed)|].
    eapply Psteps_cons; [apply Pleft, Pwork, (WR_err f _ _ _ _ _ _ _ Ec)|]. apply Psteps_nil.
Qed.

(** ** Where the property fails

    With [--simplify], a file with a remainder by zero panics instead of failing: it takes all other
    files down with it even with [--continue-on-error]. *)
Theorem C40_continue_refuted :
  ex_one (ex_args true true true) (lit "a.hcl") = OOk ex_a /\
  forall r w, ex_run (ex_args true true true) [lit "a.hcl"; lit "e.hcl"] r w -> r = Crashed.
Proof.
  split; [apply C40_example_files|]. intros r w. apply run_crash with (p := lit "e.hcl"); [reflexivity|right; now left|].
  left. vm_compute. reflexivity.
Qed.

Print Assumptions C40_continue_partial.
Print Assumptions C40_all.
Print Assumptions C40_failure.
Print Assumptions C40_schedule.
Print Assumptions C40_terminates.
Print Assumptions C40_entries.
Print Assumptions C40_main_schedule.
Print Assumptions C40_files.
Print Assumptions C40_unlisted.
Print Assumptions C40_continue_refuted.

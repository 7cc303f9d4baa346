(** Proofs about dedenting. *)
From Coq Require Import NArith Arith Bool String List Lia.
From Verif Require Import Str DedentModel DedentSpec.
Import ListNotations.
Open Scope nat_scope.

(** ** Splitting into lines *)
Section Split.
  Context {A : Type} (nl : A -> bool).
  Lemma split_concat s : concat (split_incl nl s) = s.
  Proof.
    induction s as [|c s IH]; [reflexivity|]. cbn [split_incl].
    destruct (nl c); cbn [concat app]; [rewrite IH; reflexivity|].
    destruct (split_incl nl s) as [|l ls]; cbn [concat app] in *; congruence.
  Qed.
  Lemma split_nil s : split_incl nl s = [] -> s = [].
  Proof. intros H. rewrite <- (split_concat s), H. reflexivity. Qed.

  (** Every line is non-empty, and has a line feed at most at its end. *)
  Definition piece (l : list A) : Prop :=
    exists c, (forall x, In x c -> nl x = false) /\
      ((l = c /\ c <> []) \/ exists x, l = c ++ [x] /\ nl x = true).
  Lemma split_pieces s : Forall piece (split_incl nl s).
  Proof.
    induction s as [|c s IH]; [constructor|]. cbn [split_incl].
    destruct (nl c) eqn:Hc.
    - constructor; [|exact IH]. exists []. split; [intros x []|]. right. exists c. split; auto.
    - destruct (split_incl nl s) as [|l ls] eqn:E.
      + constructor; [|constructor]. exists [c]. split.
        * intros x [<-|[]]. exact Hc.
        * left. split; [reflexivity|discriminate].
      + inversion IH as [|? ? Hl Hls]; subst. constructor; [|exact Hls].
        destruct Hl as [k [Hk Hl]]. exists (c :: k). split.
        * intros x [<-|Hx]; auto.
        * destruct Hl as [[-> Hn]|[x [-> Hx]]].
          -- left. split; [reflexivity|discriminate].
          -- right. exists x. split; [reflexivity|exact Hx].
  Qed.
  (** All lines but the last end with a line feed. *)
  Definition ended (l : list A) : Prop := exists c x, l = c ++ [x] /\ nl x = true.
  Lemma split_all_ended a b : (exists c x, a = c ++ [x] /\ nl x = true) \/ a = [] ->
    split_incl nl (a ++ b) = split_incl nl a ++ split_incl nl b.
  Proof.
    induction a as [|c a IH]; intros H; [reflexivity|]. cbn [app split_incl].
    destruct H as [[k [x [Hk Hx]]]|]; [|discriminate].
    destruct k as [|k0 k].
    - cbn in Hk. injection Hk as -> ->. rewrite Hx. reflexivity.
    - cbn in Hk. injection Hk as -> ->.
      assert (IHa := IH (or_introl (ex_intro _ k (ex_intro _ x (conj eq_refl Hx))))).
      destruct (nl k0); [rewrite IHa; reflexivity|].
      rewrite IHa. destruct (split_incl nl (k ++ [x])) as [|l ls] eqn:E.
      + apply split_nil in E. destruct k; discriminate.
      + reflexivity.
  Qed.
End Split.

Lemma split_map {A B} (f : A -> B) (nl : A -> bool) (nl' : B -> bool) s :
  (forall x, nl' (f x) = nl x) ->
  split_incl nl' (map f s) = map (map f) (split_incl nl s).
Proof.
  intros H. induction s as [|c s IH]; [reflexivity|]. cbn [map split_incl]. rewrite H, IH.
  destruct (nl c); [reflexivity|]. destruct (split_incl nl s); reflexivity.
Qed.

(** ** Lines of a literal without carriage returns *)
Lemma chomp_noeol l : (forall x, In x l -> is_lf x = false) -> chomp l = l.
Proof.
  induction l as [|c l IH]; intros H; [reflexivity|]. cbn [chomp].
  destruct l as [|d l].
  - rewrite (H c) by (left; reflexivity). reflexivity.
  - rewrite IH by (intros x Hx; apply H; right; exact Hx).
    rewrite (H d) by (right; left; reflexivity). rewrite andb_false_r.
    destruct l; reflexivity.
Qed.
Lemma chomp_eol l : ~ In CR l -> chomp (l ++ [LF]) = l.
Proof.
  induction l as [|c l IH]; intros H; [reflexivity|].
  cbn [app chomp]. destruct l as [|d l].
  - cbn [app]. assert (N.eqb c CR = false) as ->. { apply N.eqb_neq. intros ->. apply H. left. reflexivity. }
    reflexivity.
  - rewrite IH by (intros Hx; apply H; right; exact Hx). cbn [app].
    assert (N.eqb c CR = false) as ->. { apply N.eqb_neq. intros ->. apply H. left. reflexivity. }
    destruct l; reflexivity.
Qed.

Lemma is_lf_eq x : is_lf x = true -> x = LF.
Proof. apply N.eqb_eq. Qed.

(** The line feed of a line. *)
Definition eol (l : str) : str := if ends_nl l then [LF] else [].
Lemma ends_nl_app l x : ends_nl (l ++ [x]) = is_lf x.
Proof. unfold ends_nl. rewrite rev_unit. reflexivity. Qed.
Lemma ends_nl_noeol (l : str) : (forall x, In x l -> is_lf x = false) -> ends_nl l = false.
Proof.
  intros H. unfold ends_nl. destruct (rev l) as [|c r] eqn:E; [reflexivity|]. apply H.
  apply in_rev. rewrite E. left. reflexivity.
Qed.
Lemma ends_nl_cons c l : l <> [] -> ends_nl (c :: l) = ends_nl l.
Proof.
  intros H. destruct (exists_last H) as [k [x ->]]. change (c :: k ++ [x]) with ((c :: k) ++ [x]).
  rewrite !ends_nl_app. reflexivity.
Qed.
Lemma ends_nl_inv s : ends_nl s = true -> exists k, s = k ++ [LF].
Proof.
  unfold ends_nl. destruct (rev s) as [|c r] eqn:E; [discriminate|]. intros H.
  apply is_lf_eq in H. subst c. exists (rev r). rewrite <- (rev_involutive s), E. reflexivity.
Qed.
Lemma piece_chomp l : piece is_lf l -> ~ In CR l -> l = chomp l ++ eol l.
Proof.
  intros [c [Hc [[-> Hn]|[x [-> Hx]]]]] HR; unfold eol.
  - rewrite chomp_noeol by exact Hc. rewrite ends_nl_noeol by exact Hc. symmetry. apply app_nil_r.
  - rewrite ends_nl_app, Hx. apply is_lf_eq in Hx. subst x. rewrite chomp_eol; [reflexivity|].
    intros H. apply HR. apply in_or_app. left. exact H.
Qed.
Lemma piece_chomp_noeol l : piece is_lf l -> ~ In CR l -> forall x, In x (chomp l) -> is_lf x = false.
Proof.
  intros [c [Hc [[-> Hn]|[x [-> Hx]]]]] HR.
  - rewrite chomp_noeol by exact Hc. exact Hc.
  - apply is_lf_eq in Hx. subst x. rewrite chomp_eol; [exact Hc|].
    intros H. apply HR. apply in_or_app. left. exact H.
Qed.

(** Dropping at most [n] symbols of a line, never its line feed. *)
Section DropLine.
  Context {A : Type} (nl : A -> bool).
  Fixpoint drop_line (n : nat) (l : list A) {struct l} : list A :=
    match l with
    | [] => []
    | x :: r => if nl x then l else match n with 0 => l | S n => drop_line n r end
    end.
  Fixpoint drop_lines (n : nat) (skip_first : bool) (ls : list (list A)) : list A :=
    match ls with
    | [] => []
    | l :: ls => (if skip_first then l else drop_line n l) ++ drop_lines n false ls
    end.
End DropLine.

Lemma drop_line_chomp n l : piece is_lf l -> ~ In CR l ->
  drop_line is_lf n l = skipn n (chomp l) ++ eol l.
Proof.
  intros Hp HR. rewrite (piece_chomp l Hp HR) at 1.
  assert (Hno := piece_chomp_noeol l Hp HR). generalize dependent (chomp l). clear Hp HR.
  intros k. revert n. induction k as [|c k IH]; intros n Hno; cbn [app drop_line].
  - rewrite skipn_nil. unfold eol. destruct (ends_nl l); [|reflexivity]. cbn [drop_line app]. reflexivity.
  - rewrite Hno by (left; reflexivity). destruct n as [|n]; [reflexivity|]. cbn [skipn].
    apply IH. intros x Hx. apply Hno. right. exact Hx.
Qed.

Lemma noCR_pieces s : ~ In CR s -> Forall (fun l => ~ In CR l) (split_incl is_lf s).
Proof.
  intros H. apply Forall_forall. intros l Hl HR. apply H. rewrite <- (split_concat is_lf s).
  apply in_concat. exists l. auto.
Qed.

Lemma piece_nonempty {A} (nl : A -> bool) l : piece nl l -> l <> [].
Proof. intros [c [_ [[-> H]|[x [-> _]]]]]; [exact H|]. destruct c; discriminate. Qed.

Lemma ends_nl_app2 a b : b <> [] -> ends_nl (a ++ b) = ends_nl b.
Proof.
  intros H. destruct (exists_last H) as [k [x ->]]. rewrite app_assoc, !ends_nl_app. reflexivity.
Qed.

Lemma eol_app_nl l k : ends_nl l = true -> k ++ eol l = k ++ [LF].
Proof. intros H. unfold eol. rewrite H. reflexivity. Qed.

(** Only the last line may lack a line feed. *)
Lemma split_ended_head s l ls : split_incl is_lf s = l :: ls -> ls <> [] -> ends_nl l = true.
Proof.
  revert l ls. induction s as [|c s IH]; intros l ls H Hn; [discriminate|]. cbn [split_incl] in H.
  destruct (is_lf c) eqn:Hc.
  - injection H as <- <-. apply is_lf_eq in Hc. subst c. reflexivity.
  - destruct (split_incl is_lf s) as [|l0 ls0] eqn:E; injection H as <- <-.
    + contradiction.
    + rewrite ends_nl_cons; [apply (IH l0 ls0 eq_refl Hn)|].
      assert (P := split_pieces is_lf s). rewrite E in P. inversion P; subst. eapply piece_nonempty; eassumption.
Qed.
Lemma split_tail s l ls : split_incl is_lf s = l :: ls ->
  exists s', split_incl is_lf s' = ls /\ s = l ++ s'.
Proof.
  revert l ls. induction s as [|c s IH]; intros l ls H; [discriminate|]. cbn [split_incl] in H.
  destruct (is_lf c) eqn:Hc.
  - injection H as <- <-. exists s. split; reflexivity.
  - destruct (split_incl is_lf s) as [|l0 ls0] eqn:E; injection H as <- <-.
    + exists []. apply split_nil in E. subst s. split; reflexivity.
    + destruct (IH l0 ls0 eq_refl) as [s' [H1 H2]]. exists s'. split; [exact H1|]. subst s. reflexivity.
Qed.

Lemma dedent_lines_spec n skip s : ~ In CR s ->
  dedent_lines n skip (lines s)
  = drop_lines is_lf n skip (split_incl is_lf s) ++ (if is_nil s || ends_nl s then [] else [LF]).
Proof.
  unfold lines. remember (split_incl is_lf s) as ls eqn:E. revert s skip E.
  induction ls as [|l ls IH]; intros s skip E HR.
  - symmetry in E. apply split_nil in E. subst s. reflexivity.
  - symmetry in E. destruct (split_tail s l ls E) as [s' [Hs' Hs]].
    assert (P := split_pieces is_lf s). rewrite E in P. inversion P as [|? ? Hp Hps]; subst.
    assert (HRl : ~ In CR l) by (intros H; apply HR; apply in_or_app; left; exact H).
    assert (HRs' : ~ In CR s') by (intros H; apply HR; apply in_or_app; right; exact H).
    cbn [map dedent_lines drop_lines]. rewrite (IH s' false eq_refl HRs').
    assert (Hl : (if skip then chomp l else if is_nil (chomp l) then [] else skipn n (chomp l)) ++ eol l
                 = (if skip then l else drop_line is_lf n l)).
    { destruct skip; [symmetry; apply piece_chomp; assumption|].
      rewrite (drop_line_chomp n l Hp HRl). destruct (chomp l); cbn [is_nil]; [rewrite skipn_nil|]; reflexivity. }
    rewrite <- Hl. clear Hl.
    destruct s' as [|c s'].
    + cbn [split_incl drop_lines]. rewrite !app_nil_r. cbn [is_nil orb app].
      assert (Hne := piece_nonempty _ _ Hp). destruct (is_nil l) eqn:Ei; [destruct l; [contradiction|discriminate]|].
      cbn [orb]. unfold eol. destruct (ends_nl l); rewrite ?app_nil_r, <- ?app_assoc; reflexivity.
    + assert (ends_nl l = true) as Hel.
      { apply (split_ended_head _ _ _ E). intros HH. apply split_nil in HH. discriminate. }
      rewrite (eol_app_nl l _ Hel). rewrite <- !app_assoc. cbn [app].
      rewrite ends_nl_app2 by discriminate.
      assert (is_nil (l ++ c :: s') = false) as -> by (destruct l; reflexivity).
      reflexivity.
Qed.

Lemma dedent_by_spec s n skip : ~ In CR s ->
  dedent_by s n skip = drop_lines is_lf n skip (split_incl is_lf s).
Proof.
  intros HR. unfold dedent_by. rewrite dedent_lines_spec by exact HR.
  destruct s as [|c s]; [reflexivity|].
  cbn [is_nil orb].
  destruct (ends_nl (c :: s)) eqn:E.
  - rewrite app_nil_r, andb_false_r. reflexivity.
  - rewrite ends_nl_app, andb_true_r. cbn [is_lf LF N.eqb Pos.eqb]. apply removelast_last.
Qed.

(** ** Scanning: indentations by one pass over the symbols *)
Inductive sstate := Start | Lead (k : nat) | Rest.
Section Scan.
  Context {E : Type}.
  Notation sym := (sym E).
  Definition final (st : sstate) : list nat := match st with Lead k => [k] | _ => [] end.
  Fixpoint scan (st : sstate) (v : list sym) : list nat :=
    match v with
    | [] => final st
    | x :: v =>
        if sym_lf x then final st ++ scan Start v
        else if sym_ws x then
          match st with
          | Start => scan (Lead 1) v
          | Lead k => scan (Lead (S k)) v
          | Rest => scan Rest v
          end
        else match st with
             | Start => 0 :: scan Rest v
             | Lead k => k :: scan Rest v
             | Rest => scan Rest v
             end
    end.

  Definition first_line (st : sstate) (l : list sym) : list nat :=
    match st with
    | Start => if empty_line l then [] else [indentation l]
    | Lead k => [k + indentation l]
    | Rest => []
    end.
  Definition rest_lines (ls : list (list sym)) : list nat :=
    map indentation (filter (fun l => negb (empty_line l)) ls).
  Lemma scan_lines st v :
    scan st v = match slines v with [] => final st | l :: ls => first_line st l ++ rest_lines ls end.
  Proof.
    revert st. induction v as [|x v IH]; intros st; [reflexivity|].
    unfold slines in *. cbn [scan split_incl]. destruct (sym_lf x) eqn:Hx.
    - rewrite IH. f_equal.
      + destruct st; cbn [final first_line empty_line indentation]; rewrite ?Hx; rewrite ?Nat.add_0_r; reflexivity.
      + unfold rest_lines. destruct (split_incl sym_lf v) as [|l ls]; [reflexivity|].
        cbn [first_line filter map negb]. destruct (empty_line l); reflexivity.
    - assert (forall st', st' <> Start -> 
        scan st' v = match split_incl sym_lf v with [] => final st' | l :: ls => first_line st' l ++ rest_lines ls end) as IH'
        by (intros; apply IH).
      assert (forall l, empty_line (x :: l) = false) as He by (intros [|]; cbn [empty_line]; auto).
      assert (forall l, indentation (x :: l) = if sym_ws x then S (indentation l) else 0) as Hi
        by (intros l; cbn [indentation]; rewrite Hx; reflexivity).
      destruct (sym_ws x) eqn:Hw; destruct st; rewrite IH;
        destruct (split_incl sym_lf v) as [|l ls]; cbn [final first_line app];
        rewrite ?He, ?Hi; cbn [indentation]; unfold rest_lines; cbn [filter map app];
        rewrite ?Nat.add_1_r, ?Nat.add_0_r, ?Nat.add_succ_r; try reflexivity.
  Qed.
  Lemma scan_start v : scan Start v = indentations v.
  Proof.
    rewrite scan_lines. unfold indentations, rest_lines. destruct (slines v) as [|l ls]; [reflexivity|].
    cbn [first_line filter]. destruct (empty_line l); reflexivity.
  Qed.

  (** State and output after a prefix. *)
  Fixpoint run (st : sstate) (v : list sym) : sstate :=
    match v with
    | [] => st
    | x :: v =>
        run (if sym_lf x then Start
             else if sym_ws x then match st with Start => Lead 1 | Lead k => Lead (S k) | Rest => Rest end
             else Rest) v
    end.
  Fixpoint emit (st : sstate) (v : list sym) : list nat :=
    match v with
    | [] => []
    | x :: v =>
        if sym_lf x then final st ++ emit Start v
        else if sym_ws x then
          emit match st with Start => Lead 1 | Lead k => Lead (S k) | Rest => Rest end v
        else match st with
             | Start => 0 :: emit Rest v
             | Lead k => k :: emit Rest v
             | Rest => emit Rest v
             end
    end.
  Lemma scan_app a : forall st b, scan st (a ++ b) = emit st a ++ scan (run st a) b.
  Proof.
    induction a as [|x a IH]; intros st b; [reflexivity|]. cbn [app scan run emit].
    destruct (sym_lf x); [rewrite IH, app_assoc; reflexivity|].
    destruct (sym_ws x); destruct st; rewrite IH; reflexivity.
  Qed.
  Lemma run_last a x st : run st (a ++ [x]) = if sym_lf x then Start else if sym_ws x then 
      match run st a with Start => Lead 1 | Lead k => Lead (S k) | Rest => Rest end else Rest.
  Proof. revert st. induction a as [|y a IH]; intros st; cbn [app run]; [reflexivity|]. apply IH. Qed.
  Lemma run_nl s st : ends_nl s = true -> run st (map Ch s) = Start.
  Proof.
    intros H. apply ends_nl_inv in H. destruct H as [k ->]. rewrite map_app. cbn [map]. rewrite run_last. reflexivity.
  Qed.
  Lemma run_nonl s st : s <> [] -> ends_nl s = false -> run st (map Ch s) <> Start.
  Proof.
    intros Hn H. destruct (exists_last Hn) as [k [x ->]]. rewrite ends_nl_app in H.
    rewrite map_app. cbn [map]. rewrite run_last. cbn [sym_lf]. fold (is_lf x). rewrite H.
    destruct (sym_ws (Ch x)); [|discriminate]. destruct (run st (map Ch k)); discriminate.
  Qed.
  (** After a literal that ends inside a line, an element or the end of the template follows. *)
  Lemma scan_lit_elem s st v : s <> [] ->
    (v = [] \/ (exists e v', v = El e :: v') \/ ends_nl s = true) ->
    scan st (map Ch s ++ v) = scan st (map Ch s) ++ scan (if ends_nl s then Start else Rest) v.
  Proof.
    intros Hs Hv. rewrite scan_app. rewrite <- (app_nil_r (map Ch s)) at 3. rewrite scan_app, <- app_assoc.
    f_equal. cbn [scan].
    destruct (ends_nl s) eqn:En.
    - rewrite run_nl by exact En. reflexivity.
    - assert (Hr := run_nonl s st Hs En).
      destruct Hv as [->|[[e [v' ->]]|]]; [|..|discriminate].
      + cbn [scan final]. rewrite app_nil_r. reflexivity.
      + cbn [scan sym_lf sym_ws]. destruct (run st (map Ch s)); [contradiction|reflexivity|reflexivity].
  Qed.
End Scan.

(** ** [min_leading_whitespace] *)
Lemma empty_line_lit {E} l : piece is_lf l -> ~ In CR l ->
  @empty_line E (map Ch l) = is_nil (chomp l).
Proof.
  intros [c [Hc [[-> Hn]|[x [-> Hx]]]]] HR.
  - rewrite chomp_noeol by exact Hc. destruct c as [|a [|b c]]; [contradiction| |reflexivity].
    cbn. apply Hc. left. reflexivity.
  - apply is_lf_eq in Hx. subst x. rewrite chomp_eol.
    + destruct c as [|a [|b c]]; reflexivity.
    + intros H. apply HR. apply in_or_app. left. exact H.
Qed.
Lemma indentation_lit {E} l : piece is_lf l -> ~ In CR l ->
  @indentation E (map Ch l) = leading_ws (chomp l).
Proof.
  intros Hp HR. rewrite (piece_chomp l Hp HR) at 1. assert (Hno := piece_chomp_noeol l Hp HR).
  generalize dependent (chomp l). intros k Hno. induction k as [|c k IH]; cbn [app map indentation leading_ws].
  - unfold eol. destruct (ends_nl l); reflexivity.
  - cbn [sym_lf sym_ws]. assert (Hc := Hno c (or_introl eq_refl)). unfold is_lf in Hc. rewrite Hc.
    destruct (is_whitespace c); [|reflexivity]. f_equal. apply IH. intros x Hx. apply Hno. right. exact Hx.
Qed.

Definition ind_min (best : option nat) (l : list nat) : option nat :=
  fold_left (fun b w => Some (match b with Some b => Nat.min b w | None => w end)) l best.

Lemma min_ws_lines_spec {E} (skip : bool) best (ls : list str) :
  Forall (piece is_lf) ls -> Forall (fun l => ~ In CR l) ls ->
  let ws := match map (map (@Ch E)) ls with
            | [] => []
            | l :: ls => @first_line E (if skip then Rest else Start) l ++ rest_lines ls
            end in
  Forall (fun x => 1 <= x) ws ->
  min_ws_lines skip best (map chomp ls) = ind_min best ws.
Proof.
  revert skip best. induction ls as [|l ls IH]; intros skip best Hp HR ws H; [reflexivity|].
  inversion Hp as [|? ? Hl Hls]; inversion HR as [|? ? Rl Rls]; subst.
  assert (Hrest : forall (ls : list str), match map (map (@Ch E)) ls with
            | [] => []
            | l :: ls => first_line (if false then Rest else Start) l ++ rest_lines ls
            end = @rest_lines E (map (map Ch) ls)).
  { intros [|l' ls']; [reflexivity|]. cbn [map first_line]. unfold rest_lines. cbn [filter].
    destruct (empty_line (map Ch l')); reflexivity. }
  assert (Htl : forall b, Forall (fun x => 1 <= x) (rest_lines (map (map (@Ch E)) ls)) ->
     min_ws_lines false b (map chomp ls) = ind_min b (rest_lines (map (map (@Ch E)) ls))).
  { intros b Hf. specialize (IH false b Hls Rls). cbv zeta in IH. rewrite Hrest in IH. exact (IH Hf). }
  subst ws. cbn [map] in *. cbn [min_ws_lines].
  destruct skip; cbn [orb first_line] in *.
  - apply Htl. exact H.
  - rewrite (empty_line_lit l Hl Rl), (indentation_lit l Hl Rl) in *.
    destruct (is_nil (chomp l)).
    + apply Htl. exact H.
    + cbn [app] in *. inversion H as [|? ? Hw Hws]; subst.
      destruct (Nat.eqb_spec (leading_ws (chomp l)) 0) as [Hz|Hz]; [lia|].
      cbn [ind_min fold_left]. apply Htl. exact Hws.
Qed.

Lemma min_leading_spec {E} s (skip : bool) : ~ In CR s ->
  let ws := @scan E (if skip then Rest else Start) (map Ch s) in
  Forall (fun x => 1 <= x) ws ->
  min_leading_whitespace s skip = ind_min None ws.
Proof.
  intros HR ws H. unfold min_leading_whitespace.
  destruct (is_nil s) eqn:En.
  - destruct s; [|discriminate]. subst ws. destruct skip; reflexivity.
  - subst ws. rewrite scan_lines in *.
    assert (HS : slines (map (@Ch E) s) = map (map Ch) (split_incl is_lf s)) by (apply split_map; reflexivity).
    rewrite HS in *. unfold lines.
    assert (M := @min_ws_lines_spec E skip None (split_incl is_lf s) (split_pieces is_lf s) (noCR_pieces s HR)).
    destruct (map (map Ch) (split_incl is_lf s)) eqn:Em.
    + destruct (split_incl is_lf s) eqn:Es; [|discriminate]. apply split_nil in Es. subst s. discriminate.
    + apply M. exact H.
Qed.

Lemma ind_min_app b l1 l2 : ind_min b (l1 ++ l2) = ind_min (ind_min b l1) l2.
Proof. apply fold_left_app. Qed.
Lemma ind_min_merge b l : 
  match ind_min None l with
  | Some w => Some (match b with Some i => Nat.min i w | None => w end)
  | None => b
  end = ind_min b l.
Proof.
  enough (forall a, match ind_min a l with
     | Some w => match a with Some _ => Some (match b with Some i => Nat.min i w | None => w end)
                 | None => Some (match b with Some i => Nat.min i w | None => w end) end
     | None => b end = 
     ind_min (match a with Some x => Some (match b with Some i => Nat.min i x | None => x end) | None => b end) l) as H.
  { specialize (H None). cbn in H. exact H. }
  revert b. induction l as [|x l IH]; intros b a.
  - cbn. destruct a; reflexivity.
  - cbn [ind_min fold_left]. fold (ind_min (Some match a with Some b0 => Nat.min b0 x | None => x end) l).
    fold (ind_min (Some (match (match a with Some x0 => Some (match b with Some i => Nat.min i x0 | None => x0 end) | None => b end) with
       Some b0 => Nat.min b0 x | None => x end)) l).
    specialize (IH b (Some match a with Some b0 => Nat.min b0 x | None => x end)). cbv iota in IH.
    destruct (ind_min (Some match a with Some b0 => Nat.min b0 x | None => x end) l) eqn:Em.
    + replace (match a with Some _ | None => Some match b with Some i => Nat.min i n | None => n end end)
        with (Some match b with Some i => Nat.min i n | None => n end) by (destruct a; reflexivity).
      rewrite IH. f_equal. f_equal. destruct a, b; lia.
    + exfalso. clear -Em. revert Em. generalize (match a with Some b0 => Nat.min b0 x | None => x end).
      induction l as [|y l IH]; intros n; [discriminate|]. cbn. apply IH.
Qed.
Lemma ind_min_some l x : exists m, ind_min (Some x) l = Some m /\ In m (x :: l) /\ forall y, In y (x :: l) -> m <= y.
Proof.
  revert x. induction l as [|z l IH]; intros x.
  - exists x. split; [reflexivity|]. split; [left; reflexivity|]. intros y [<-|[]]. lia.
  - cbn. destruct (IH (Nat.min x z)) as [m [H1 [H2 H3]]]. exists m. split; [exact H1|]. split.
    + destruct H2 as [H2|H2]; [|auto]. destruct (Nat.min_spec x z) as [[_ E]|[_ E]]; rewrite E in H2; auto.
    + intros y [Hy|[Hy|Hy]]; subst.
      * specialize (H3 _ (or_introl eq_refl)). lia.
      * specialize (H3 _ (or_introl eq_refl)). lia.
      * apply H3. right. exact Hy.
Qed.
Lemma ind_min_none l : l <> [] -> exists m, ind_min None l = Some m /\ least l m.
Proof.
  destruct l as [|x l]; [contradiction|]. intros _. exact (ind_min_some l x).
Qed.

(** ** The measuring loop *)
Section Measure.
  Context {E : Type}.
  Notation tel := (tel E).
  Lemma measure_spec (t : list tel) : forall flag (skip : bool) ind,
    wf_template flag t ->
    Forall (fun x => 1 <= x) (scan (if skip then Rest else Start) (symbols t)) ->
    dedent_measure skip ind t = inr (ind_min ind (scan (if skip then Rest else Start) (symbols t))).
  Proof.
    induction t as [|[s|e] t IH]; intros flag skip ind Hwf HF; cbn [dedent_measure symbols] in *.
    - destruct skip; reflexivity.
    - cbn [wf_template] in Hwf. destruct Hwf as [-> [Hs [HR Hwf]]].
      assert (Hv : symbols t = [] \/ (exists e v', symbols t = El e :: v') \/ ends_nl s = true).
      { destruct t as [|[s'|e'] t]; [auto| |].
        - cbn [wf_template] in Hwf. destruct Hwf as [Hf _]. discriminate.
        - right. left. exists e', (symbols t). reflexivity. }
      rewrite (scan_lit_elem s _ _ Hs Hv) in *. apply Forall_app in HF. destruct HF as [HF1 HF2].
      assert (HM := @min_leading_spec E s skip HR HF1). rewrite HM.
      rewrite ind_min_merge. rewrite ind_min_app.
      replace (if ends_nl s then Start else Rest) with (if negb (ends_nl s) then Rest else Start) in *
        by (destruct (ends_nl s); reflexivity).
      apply (IH true); assumption.
    - cbn [wf_template] in Hwf. cbn [scan sym_lf sym_ws] in *.
      destruct skip.
      + apply (IH false true ind Hwf). exact HF.
      + inversion HF. lia.
  Qed.
End Measure.

(** ** The applying loop *)
Inductive dstate := Drop (j : nat) | Keep.
Section Apply.
  Context {E : Type} (n : nat).
  Notation sym := (sym E).
  Fixpoint ded (st : dstate) (v : list sym) : list sym :=
    match v with
    | [] => []
    | x :: v =>
        if sym_lf x then x :: ded (Drop n) v
        else match st with
             | Drop (S j) => ded (Drop j) v
             | Drop 0 | Keep => x :: ded Keep v
             end
    end.
  Definition dfirst (st : dstate) (l : list sym) : list sym :=
    match st with Drop j => drop_line sym_lf j l | Keep => l end.
  Lemma ded_lines st v :
    ded st v = match slines v with [] => [] | l :: ls => dfirst st l ++ drop_lines sym_lf n false ls end.
  Proof.
    revert st. induction v as [|x v IH]; intros st; [reflexivity|].
    unfold slines in *. cbn [ded split_incl]. destruct (sym_lf x) eqn:Hx.
    - rewrite IH. cbn [dfirst]. assert (dfirst st [x] = [x]) as ->.
      { destruct st; cbn [dfirst drop_line]; rewrite ?Hx; reflexivity. }
      cbn [app]. f_equal. destruct (split_incl sym_lf v); reflexivity.
    - destruct st as [[|j]|]; rewrite IH; destruct (split_incl sym_lf v) as [|l ls];
        cbn [dfirst drop_line app]; rewrite ?Hx; cbn [drop_line app]; try reflexivity.
  Qed.
  Lemma ded_drop v : ded (Drop n) v = drop_lines sym_lf n false (slines v).
  Proof. rewrite ded_lines. destruct (slines v); reflexivity. Qed.
  Lemma ded_keep v : ded Keep v = drop_lines sym_lf n true (slines v).
  Proof. rewrite ded_lines. destruct (slines v); reflexivity. Qed.

  Fixpoint drun (st : dstate) (v : list sym) : dstate :=
    match v with
    | [] => st
    | x :: v =>
        drun (if sym_lf x then Drop n
              else match st with Drop (S j) => Drop j | _ => Keep end) v
    end.
  Lemma ded_app a : forall st b, ded st (a ++ b) = ded st a ++ ded (drun st a) b.
  Proof.
    induction a as [|x a IH]; intros st b; [reflexivity|]. cbn [app ded drun].
    destruct (sym_lf x); [rewrite IH; reflexivity|].
    destruct st as [[|j]|]; rewrite IH; reflexivity.
  Qed.

  (** How the scanning state bounds the dropping state. *)
  Definition related (st : sstate) (d : dstate) : Prop :=
    match st with
    | Start => d = Drop n
    | Lead k => d = Drop (n - k) \/ (d = Keep /\ n <= k)
    | Rest => d = Keep
    end.
  Lemma related_run a : forall st d,
    related st d -> Forall (fun x => n <= x) (emit st a) -> related (run st a) (drun d a).
  Proof.
    induction a as [|x a IH]; intros st d HR HF; [exact HR|]. cbn [run drun emit] in *.
    destruct (sym_lf x).
    - apply Forall_app in HF. apply IH; [reflexivity|]. apply HF.
    - destruct (sym_ws x).
      + apply IH; [|exact HF]. destruct st as [|k|]; cbn [related] in *.
        * subst d. destruct n as [|m]; cbn; [right; split; [reflexivity|lia]|left; f_equal; lia].
        * destruct HR as [->|[-> Hk]].
          -- destruct (n - k) eqn:En; [right; split; [reflexivity|lia]|left; f_equal; lia].
          -- right. split; [reflexivity|lia].
        * subst d. reflexivity.
      + destruct st as [|k|]; cbn [related] in *.
        * inversion HF as [|? ? Hx HF']; subst. apply IH; [|assumption]. cbn [related].
          assert (n = 0) as -> by lia. reflexivity.
        * inversion HF as [|? ? Hx HF']; subst. apply IH; [|assumption]. cbn [related].
          destruct HR as [->|[-> Hk]]; [|reflexivity]. assert (n - k = 0) as -> by lia. reflexivity.
        * subst d. apply IH; [reflexivity|assumption].
  Qed.

  Lemma apply_lit s (skip : bool) : ~ In CR s ->
    map (@Ch E) (dedent_by s n skip) = ded (if skip then Keep else Drop n) (map Ch s).
  Proof.
    intros HR. rewrite dedent_by_spec by exact HR.
    replace (ded (if skip then Keep else Drop n) (map Ch s)) with (drop_lines sym_lf n skip (slines (map (@Ch E) s)))
      by (destruct skip; symmetry; [apply ded_keep|apply ded_drop]).
    unfold slines. rewrite (split_map Ch is_lf sym_lf s) by reflexivity.
    generalize (split_incl is_lf s). intros ls. revert skip.
    assert (HD : forall l j, map (@Ch E) (drop_line is_lf j l) = drop_line sym_lf j (map Ch l)).
    { induction l as [|c l IHl]; intros j; [reflexivity|]. cbn [map drop_line sym_lf]. unfold is_lf at 1.
      destruct (N.eqb c LF); [reflexivity|]. destruct j; [reflexivity|]. apply IHl. }
    induction ls as [|l ls IH]; intros skip; [reflexivity|]. cbn [map drop_lines]. rewrite map_app, IH.
    destruct skip; [reflexivity|]. rewrite HD. reflexivity.
  Qed.

  Lemma apply_spec (t : list (tel E)) : forall flag (skip : bool) st d,
    wf_template flag t ->
    (flag = true \/ st = if skip then Rest else Start) ->
    related st d ->
    Forall (fun x => n <= x) (scan st (symbols t)) ->
    symbols (dedent_apply n skip t) = ded d (symbols t).
  Proof.
    induction t as [|[s|e] t IH]; intros flag skip st d Hwf Hst HR HF; cbn [dedent_apply symbols] in *.
    - reflexivity.
    - cbn [wf_template] in Hwf. destruct Hwf as [-> [Hs [HCR Hwf]]].
      destruct Hst as [Hst|Hst]; [discriminate|]. rewrite ded_app.
      rewrite scan_app in HF. apply Forall_app in HF. destruct HF as [HF1 HF2].
      f_equal.
      + rewrite apply_lit by exact HCR. destruct skip; subst st; cbn [related] in HR; subst d; reflexivity.
      + apply (IH true _ (run st (map (@Ch E) s))); auto. apply related_run; assumption.
    - cbn [wf_template] in Hwf. cbn [scan sym_lf sym_ws ded] in *.
      assert (HF' : Forall (fun x => n <= x) (scan Rest (symbols t))).
      { destruct st; [inversion HF| inversion HF|]; assumption. }
      assert (symbols (dedent_apply n true t) = ded Keep (symbols t)) as E1.
      { apply (IH false true Rest); auto. reflexivity. }
      destruct st as [|k|]; cbn [related] in HR.
      + subst d. inversion HF; subst. assert (n = 0) as Hn by lia. rewrite Hn at 2. rewrite E1. reflexivity.
      + inversion HF; subst. destruct HR as [->|[-> _]].
        * assert (n - k = 0) as -> by lia. rewrite E1. reflexivity.
        * rewrite E1. reflexivity.
      + subst d. rewrite E1. reflexivity.
  Qed.
End Apply.

(** ** The theorems *)
Section Main.
  Context {E : Type}.

  Lemma drop_line_skipn n (l : list (sym E)) : n <= indentation l -> drop_line sym_lf n l = skipn n l.
  Proof.
    revert n. induction l as [|x l IH]; intros n H; cbn [indentation drop_line] in *.
    - destruct n; reflexivity.
    - destruct (sym_lf x).
      + assert (n = 0) as -> by lia. reflexivity.
      + destruct n; [reflexivity|]. cbn [skipn]. destruct (sym_ws x); [|lia]. apply IH. lia.
  Qed.
  Lemma drop_line_empty n (l : list (sym E)) : empty_line l = true -> drop_line sym_lf n l = l.
  Proof.
    destruct l as [|x [|y l]]; cbn [empty_line drop_line]; [reflexivity| |discriminate].
    intros ->. reflexivity.
  Qed.
  Lemma drop_columns_spec n (v : list (sym E)) : (forall x, In x (indentations v) -> n <= x) ->
    drop_lines sym_lf n false (slines v) = drop_columns n v.
  Proof.
    unfold indentations, drop_columns. induction (slines v) as [|l ls IH]; intros H; [reflexivity|].
    cbn [drop_lines map concat filter] in *. destruct (empty_line l) eqn:He; cbn [negb] in H.
    - rewrite drop_line_empty by exact He. rewrite IH by exact H. reflexivity.
    - cbn [map] in H. rewrite drop_line_skipn by (apply H; left; reflexivity).
      rewrite IH by (intros x Hx; apply H; right; exact Hx). reflexivity.
  Qed.

  Theorem dedent_common (t : list (tel E)) m :
    wf_template false t ->
    least (indentations (symbols t)) m -> 1 <= m ->
    exists t', dedent t = (t', Some m) /\ symbols t' = drop_columns m (symbols t).
  Proof.
    intros Hwf Hm H1. unfold dedent.
    assert (HF : Forall (fun x => 1 <= x) (scan Start (symbols t))).
    { rewrite scan_start. apply Forall_forall. intros x Hx. destruct Hm as [_ Hm]. specialize (Hm x Hx). lia. }
    rewrite (measure_spec t false false None Hwf HF). rewrite scan_start.
    destruct (ind_min_none (indentations (symbols t))) as [m' [-> [Hm1 Hm2]]].
    { intros E0. destruct Hm as [Hm _]. rewrite E0 in Hm. destruct Hm. }
    assert (m' = m) as ->. { destruct Hm as [Ha Hb]. specialize (Hb _ Hm1). specialize (Hm2 _ Ha). lia. }
    eexists. split; [reflexivity|].
    rewrite (apply_spec m t false false Start (Drop m) Hwf); [|right; reflexivity|reflexivity|].
    - rewrite ded_drop. apply drop_columns_spec. apply Hm.
    - rewrite scan_start. apply Forall_forall. apply Hm.
  Qed.

  (** An element at the start of a line. *)
  Lemma measure_element (t : list (tel E)) : forall flag skip ind v1 e v2,
    wf_template flag t -> (flag = true \/ True) ->
    symbols t = v1 ++ El e :: v2 ->
    (v1 = [] /\ skip = false \/ exists k, v1 = k ++ [Ch LF]) ->
    dedent_measure skip ind t = inl tt.
  Proof.
    induction t as [|[s|e'] t IH]; intros flag skip ind v1 e v2 Hwf _ Hs Hv; cbn [symbols dedent_measure wf_template] in *.
    - destruct v1; discriminate.
    - destruct Hwf as [-> [Hne [HR Hwf]]].
      (* the element lies in the rest *)
      assert (exists w, v1 = map Ch s ++ w /\ symbols t = w ++ El e :: v2) as [w [Hw Ht]].
      { clear -Hs. revert v1 Hs. induction s as [|c s IHs]; intros v1 Hs; cbn [map app] in *.
        - exists v1. auto.
        - destruct v1 as [|x v1]; [discriminate|]. cbn in Hs. injection Hs as <- Hs.
          destruct (IHs v1 Hs) as [w [-> Hw]]. exists w. split; [reflexivity|exact Hw]. }
      apply (IH true _ _ w e v2 Hwf); auto.
      destruct w as [|x w].
      + left. split; [reflexivity|]. rewrite app_nil_r in Hw. subst v1.
        destruct Hv as [[Hv _]|[k Hk]].
        * destruct s; [contradiction|discriminate].
        * destruct (exists_last Hne) as [s' [c ->]]. rewrite map_app in Hk. cbn [map] in Hk.
          apply app_inj_tail in Hk. destruct Hk as [_ Hk]. injection Hk as ->. rewrite ends_nl_app. reflexivity.
      + right. destruct Hv as [[Hv _]|[k Hk]].
        * rewrite Hv in Hw. destruct s; discriminate.
        * assert (Hxw : x :: w <> []) by discriminate. destruct (exists_last Hxw) as [w' [y Hy]].
          rewrite Hy in *. exists w'. f_equal. rewrite Hk in Hw. rewrite app_assoc in Hw.
          apply app_inj_tail in Hw. destruct Hw as [_ <-]. reflexivity.
    - destruct v1 as [|x v1].
      + destruct Hv as [[_ ->]|[k Hk]]; [reflexivity|]. destruct k; discriminate.
      + cbn in Hs. injection Hs as Hx Hs. destruct skip; [|reflexivity].
        apply (IH false true ind v1 e v2 Hwf); auto. right.
        destruct Hv as [[Hv _]|[k Hk]]; [discriminate|].
        destruct k as [|k0 k]; cbn in Hk; injection Hk as Hk0 Hk.
        * subst x. discriminate.
        * exists k. exact Hk.
  Qed.
  Theorem dedent_element (t : list (tel E)) v1 e v2 :
    wf_template false t -> symbols t = v1 ++ El e :: v2 ->
    (v1 = [] \/ exists k, v1 = k ++ [Ch LF]) ->
    dedent t = (t, None).
  Proof.
    intros Hwf Hs Hv. unfold dedent.
    rewrite (measure_element t false false None v1 e v2 Hwf (or_intror I) Hs); [reflexivity|].
    destruct Hv as [->|Hv]; [left; auto|right; exact Hv].
  Qed.
  Theorem dedent_blank (t : list (tel E)) :
    wf_template false t -> indentations (symbols t) = [] -> dedent t = (t, None).
  Proof.
    intros Hwf H. unfold dedent. rewrite (measure_spec t false false None Hwf).
    - rewrite scan_start, H. reflexivity.
    - rewrite scan_start, H. constructor.
  Qed.

  (** Only white space is dropped. *)
  Lemma skipn_ws n (l : list (sym E)) : n <= indentation l ->
    l = firstn n l ++ skipn n l /\ Forall (fun x => sym_ws x = true /\ sym_lf x = false) (firstn n l).
  Proof.
    revert n. induction l as [|x l IH]; intros n H.
    - cbn in H. assert (n = 0) as -> by lia. split; [reflexivity|constructor].
    - cbn [indentation] in H. destruct n; [split; [reflexivity|constructor]|].
      destruct (sym_lf x) eqn:E1; [lia|]. destruct (sym_ws x) eqn:E2; [|lia].
      destruct (IH n) as [Ha Hb]; [lia|]. cbn [firstn skipn app]. split; [f_equal; exact Ha|].
      constructor; auto.
  Qed.
End Main.

(** ** A literal alone: the property in full *)
Lemma min_ws_lines_zero ls : forall (skip : bool) best,
  (exists l, In l (if skip then tl ls else ls) /\ l <> [] /\ leading_ws l = 0) ->
  min_ws_lines skip best ls = None.
Proof.
  induction ls as [|l ls IH]; intros skip best [x [Hx [Hn Hz]]].
  - destruct skip; destruct Hx.
  - cbn [min_ws_lines]. destruct skip; cbn [orb tl] in *.
    + apply IH. exists x. auto.
    + destruct Hx as [->|Hx].
      * destruct x; [contradiction|]. cbn [is_nil]. rewrite Hz. reflexivity.
      * destruct (is_nil l); [apply IH; exists x; auto|].
        destruct (Nat.eqb (leading_ws l) 0); [reflexivity|]. apply IH. exists x. auto.
Qed.
Theorem dedent_single_zero {E} s : s <> [] -> ~ In CR s ->
  In 0 (indentations (E := E) (symbols [TLit s])) -> dedent (E := E) [TLit s] = ([TLit s], None).
Proof.
  intros Hne HR Hz. unfold dedent. cbn [dedent_measure].
  assert (min_leading_whitespace s false = None) as ->; [|reflexivity].
  unfold min_leading_whitespace. destruct s as [|c s]; [contradiction|]. cbn [is_nil].
  remember (c :: s) as t eqn:Et. clear Et.
  apply min_ws_lines_zero. cbn [symbols] in Hz. rewrite app_nil_r in Hz.
  unfold indentations, slines in Hz. rewrite (split_map Ch is_lf sym_lf t) in Hz by reflexivity.
  apply in_map_iff in Hz. destruct Hz as [l [Hl Hin]]. apply filter_In in Hin. destruct Hin as [Hin He].
  apply in_map_iff in Hin. destruct Hin as [k [<- Hk]].
  assert (P := split_pieces is_lf t). rewrite Forall_forall in P. specialize (P k Hk).
  assert (R := noCR_pieces t HR). rewrite Forall_forall in R. specialize (R k Hk).
  exists (chomp k). split; [apply in_map; exact Hk|].
  rewrite (empty_line_lit k P R) in He. rewrite (indentation_lit k P R) in Hl. split; [|exact Hl].
  intros E0. rewrite E0 in He. discriminate.
Qed.

(** ** No line is indented *)
Lemma min_ws_lines_flat {E} (skip : bool) (ls : list str) :
  Forall (piece is_lf) ls -> Forall (fun l => ~ In CR l) ls ->
  Forall (fun x => x = 0) match map (map (@Ch E)) ls with
            | [] => []
            | l :: ls => @first_line E (if skip then Rest else Start) l ++ rest_lines ls
            end ->
  min_ws_lines skip None (map chomp ls) = None.
Proof.
  revert skip. induction ls as [|l ls IH]; intros skip Hp HR H; [reflexivity|].
  inversion Hp as [|? ? Hl Hls]; inversion HR as [|? ? Rl Rls]; subst.
  assert (Htl : Forall (fun x => x = 0) (rest_lines (map (map (@Ch E)) ls)) -> min_ws_lines false None (map chomp ls) = None).
  { intros Hf. apply (IH false Hls Rls). clear -Hf. destruct ls as [|l' ls']; [constructor|]. cbn [map first_line] in *.
    unfold rest_lines in *. cbn [filter] in Hf. destruct (empty_line (map Ch l')); exact Hf. }
  cbn [map] in *. cbn [min_ws_lines]. destruct skip; cbn [orb first_line] in *; [apply Htl; exact H|].
  rewrite (empty_line_lit l Hl Rl), (indentation_lit l Hl Rl) in H. destruct (is_nil (chomp l)); [apply Htl; exact H|].
  cbn [app] in H. inversion H as [|? ? Hw Hws]; subst. now rewrite Hw.
Qed.
Lemma min_leading_flat {E} s (skip : bool) : ~ In CR s ->
  Forall (fun x => x = 0) (@scan E (if skip then Rest else Start) (map Ch s)) -> min_leading_whitespace s skip = None.
Proof.
  intros HR H. unfold min_leading_whitespace. destruct (is_nil s) eqn:En; [reflexivity|]. rewrite scan_lines in H.
  assert (HS : slines (map (@Ch E) s) = map (map Ch) (split_incl is_lf s)) by (apply split_map; reflexivity). rewrite HS in H. unfold lines.
  apply (@min_ws_lines_flat E); [apply split_pieces|now apply noCR_pieces|].
  destruct (map (map Ch) (split_incl is_lf s)); [constructor|exact H].
Qed.
Lemma measure_flat {E} (t : list (tel E)) : forall flag (skip : bool), wf_template flag t ->
  Forall (fun x => x = 0) (scan (if skip then Rest else Start) (symbols t)) ->
  dedent_measure skip None t = inr None \/ dedent_measure skip None t = inl tt.
Proof.
  induction t as [|[s|e] t IH]; intros flag skip Hwf HF; cbn [dedent_measure symbols] in *.
  - now left.
  - cbn [wf_template] in Hwf. destruct Hwf as [-> [Hs [HR Hwf]]].
    assert (Hv : symbols t = [] \/ (exists e v', symbols t = El e :: v') \/ ends_nl s = true).
    { destruct t as [|[s'|e'] t]; [auto| |].
      - cbn [wf_template] in Hwf. destruct Hwf as [Hf _]. discriminate.
      - right. left. exists e', (symbols t). reflexivity. }
    rewrite (scan_lit_elem s _ _ Hs Hv) in HF. apply Forall_app in HF. destruct HF as [HF1 HF2].
    rewrite (@min_leading_flat E s skip HR HF1).
    replace (if ends_nl s then Start else Rest) with (if negb (ends_nl s) then Rest else Start) in HF2 by (destruct (ends_nl s); reflexivity).
    apply (IH true); assumption.
  - cbn [wf_template] in Hwf. destruct skip; [|now right]. cbn [scan sym_lf sym_ws] in HF. now apply (IH false true Hwf).
Qed.
Theorem dedent_flat {E} (t : list (tel E)) : wf_template false t -> Forall (fun x => x = 0) (indentations (symbols t)) -> dedent t = (t, None).
Proof.
  intros Hwf H. unfold dedent. rewrite <- scan_start in H. destruct (measure_flat t false false Hwf H) as [-> | ->]; reflexivity.
Qed.

(** ** Indenting *)
Fixpoint put_lines {A} (p : list A) (nl : A -> bool) (skip : bool) (ls : list (list A)) : list A :=
  match ls with
  | [] => []
  | l :: ls => (if skip then l else match l with [] => [] | x :: _ => if nl x then l else p ++ l end)
               ++ put_lines p nl false ls
  end.
Lemma indent_lines_spec p s : forall first skip, ~ In CR s -> p = p ->
  (first = false -> skip = skip) ->
  s <> [] ->
  indent_lines p first skip (lines s) ++ (if ends_nl s then [LF] else [])
  = (if first then [] else [LF]) ++ put_lines p is_lf (first && skip) (split_incl is_lf s).
Proof.
  unfold lines. remember (split_incl is_lf s) as ls eqn:E. revert s E.
  induction ls as [|l ls IH]; intros s E first skip HR _ _ Hne.
  - symmetry in E. apply split_nil in E. contradiction.
  - symmetry in E. destruct (split_tail s l ls E) as [s' [Hs' Hs]].
    assert (P := split_pieces is_lf s). rewrite E in P. inversion P as [|? ? Hp Hps]; subst.
    assert (HRl : ~ In CR l) by (intros H; apply HR; apply in_or_app; left; exact H).
    assert (HRs' : ~ In CR s') by (intros H; apply HR; apply in_or_app; right; exact H).
    cbn [map indent_lines put_lines].
    assert (Hl : forall k, (if is_nil (chomp l) then [] else p) ++ chomp l ++ eol l ++ k
                 = match l with [] => [] | x :: _ => if is_lf x then l else p ++ l end ++ k).
    { intros k.
      assert (Hno := piece_chomp_noeol l Hp HRl).
      assert (Hpc := piece_chomp l Hp HRl). assert (Hn := piece_nonempty _ _ Hp).
      destruct l as [|x l]; [contradiction|].
      destruct (chomp (x :: l)) as [|y k'] eqn:Ec; cbn [is_nil app] in *.
      - unfold eol in Hpc at 1. destruct (ends_nl (x :: l)); [|discriminate]. injection Hpc as -> ->. reflexivity.
      - injection Hpc as -> Hpc. rewrite (Hno y (or_introl eq_refl)).
        rewrite (app_assoc k'), <- Hpc. rewrite <- app_assoc. reflexivity. }
    destruct s' as [|c s'].
    + cbn [split_incl map indent_lines put_lines]. rewrite !app_nil_r. fold (eol l).
      destruct first; cbn [andb].
      * destruct skip; cbn [negb andb app].
        -- symmetry. apply piece_chomp; assumption.
        -- unfold eol in Hl. specialize (Hl []). rewrite !app_nil_r in Hl. rewrite <- Hl.
           destruct (is_nil (chomp l)); cbn [negb app]; rewrite <- ?app_assoc; reflexivity.
      * unfold eol in Hl. cbn [app]. f_equal. specialize (Hl []). rewrite !app_nil_r in Hl. rewrite <- Hl.
        destruct (is_nil (chomp l)); cbn [app]; rewrite <- ?app_assoc; reflexivity.
    + assert (ends_nl l = true) as Hel.
      { apply (split_ended_head _ _ _ E). intros HH. apply split_nil in HH. discriminate. }
      rewrite ends_nl_app2 by discriminate.
      rewrite <- app_assoc. rewrite <- app_assoc.
      rewrite (IH (c :: s') eq_refl false skip HRs' eq_refl (fun _ => eq_refl)) by discriminate.
      cbn [andb]. specialize (Hl (put_lines p is_lf false (split_incl is_lf (c :: s')))).
      unfold eol in Hl. rewrite Hel in Hl. cbn [app] in *.
      destruct first; cbn [andb].
      * destruct skip; cbn [negb andb app].
        -- rewrite (piece_chomp l Hp HRl) at 2. unfold eol. rewrite Hel. rewrite <- app_assoc. reflexivity.
        -- rewrite <- Hl. destruct (is_nil (chomp l)); reflexivity.
      * cbn [app]. f_equal. rewrite <- Hl. destruct (is_nil (chomp l)); reflexivity.
Qed.
Lemma indent_by_spec s n skip : ~ In CR s ->
  indent_by s n skip = put_lines (repeat 32%N n) is_lf skip (split_incl is_lf s).
Proof.
  intros HR. unfold indent_by. destruct s as [|c s]; [reflexivity|].
  rewrite (indent_lines_spec _ (c :: s) true skip HR eq_refl (fun _ => eq_refl)) by discriminate. reflexivity.
Qed.

(** Splitting the indented text gives the indented lines. *)
Definition put_line (p : str) (skip : bool) (l : str) : str :=
  if skip then l else match l with [] => [] | x :: _ => if is_lf x then l else p ++ l end.
Lemma split_one c s : (forall x, In x c -> is_lf x = false) -> c <> [] ->
  split_incl is_lf (c ++ s) =
  match split_incl is_lf s with [] => [c] | l :: ls => (c ++ l) :: ls end.
Proof.
  induction c as [|x c IH]; intros Hc Hn; [contradiction|]. cbn [app split_incl].
  rewrite (Hc x (or_introl eq_refl)). destruct c as [|y c].
  - cbn [app]. destruct (split_incl is_lf s); reflexivity.
  - rewrite IH; [|intros z Hz; apply Hc; right; exact Hz|discriminate].
    destruct (split_incl is_lf s); reflexivity.
Qed.
Lemma split_put p s skip : (forall x, In x p -> is_lf x = false) ->
  split_incl is_lf (put_lines p is_lf skip (split_incl is_lf s))
  = match split_incl is_lf s with [] => [] | l :: ls => put_line p skip l :: map (put_line p false) ls end.
Proof.
  intros Hp. remember (split_incl is_lf s) as ls eqn:E. revert s skip E.
  induction ls as [|l ls IH]; intros s skip E; [reflexivity|].
  symmetry in E. destruct (split_tail s l ls E) as [s' [Hs' ->]].
  assert (P := split_pieces is_lf (l ++ s')). rewrite E in P. inversion P as [|? ? Hpl Hps]; subst.
  cbn [put_lines]. change (if skip then l else match l with [] => [] | x :: _ => if is_lf x then l else p ++ l end) with (put_line p skip l).
  specialize (IH s' false eq_refl).
  assert (IH' : split_incl is_lf (put_lines p is_lf false (split_incl is_lf s')) = map (put_line p false) (split_incl is_lf s')).
  { rewrite IH. destruct (split_incl is_lf s'); reflexivity. }
  assert (Hone : split_incl is_lf (put_line p skip l) = [put_line p skip l]).
  { destruct Hpl as [c [Hc [[-> Hn]|[x [-> Hx]]]]].
    - unfold put_line. destruct c as [|x c]; [contradiction|]. rewrite (Hc x (or_introl eq_refl)).
      assert (Hk : forall k, (forall y, In y k -> is_lf y = false) -> k <> [] -> split_incl is_lf k = [k]).
      { intros k H1 H2. rewrite <- (app_nil_r k) at 1. rewrite split_one; auto. }
      destruct skip; apply Hk.
      + exact Hc.
      + discriminate.
      + intros y Hy. apply in_app_or in Hy. destruct Hy; auto.
      + destruct p; discriminate.
    - apply is_lf_eq in Hx. subst x. unfold put_line.
      assert (Hs1 : forall k, (forall y, In y k -> is_lf y = false) -> split_incl is_lf (k ++ [LF]) = [k ++ [LF]]).
      { intros k Hk. destruct k as [|k0 k]; [reflexivity|]. rewrite split_one; [reflexivity|exact Hk|discriminate]. }
      destruct skip; [apply Hs1; exact Hc|]. destruct c as [|x c]; [reflexivity|]. cbn [app].
      rewrite (Hc x (or_introl eq_refl)). change (x :: c ++ [LF]) with ((x :: c) ++ [LF]). rewrite app_assoc.
      apply Hs1. intros y Hy. apply in_app_or in Hy. destruct Hy; auto. }
  destruct s' as [|c s'].
  - cbn [split_incl put_lines map]. rewrite app_nil_r. exact Hone.
  - assert (ends_nl l = true) as Hel.
    { apply (split_ended_head _ _ _ E). intros HH. apply split_nil in HH. discriminate. }
    rewrite split_all_ended; [rewrite Hone, IH'; reflexivity|]. left.
    apply ends_nl_inv in Hel. destruct Hel as [k ->]. unfold put_line.
    destruct skip; [exists k, LF; split; reflexivity|].
    destruct k as [|k0 k]; [exists [], LF; split; reflexivity|]. cbn [app]. destruct (is_lf k0).
    + exists (k0 :: k), LF. split; reflexivity.
    + exists (p ++ k0 :: k), LF. split; [rewrite <- app_assoc; reflexivity|reflexivity].
Qed.

Lemma indent_noCR s n skip : ~ In CR s -> ~ In CR (put_lines (repeat 32%N n) is_lf skip (split_incl is_lf s)).
Proof.
  intros HR. assert (R := noCR_pieces s HR). revert skip. induction R as [|l ls Hl Hls IH]; intros skip; [intros []|].
  cbn [put_lines]. intros H. apply in_app_or in H. destruct H as [H|H]; [|exact (IH false H)].
  destruct skip; [exact (Hl H)|]. destruct l as [|x l]; [exact H|]. destruct (is_lf x); [exact (Hl H)|].
  apply in_app_or in H. destruct H as [H|H]; [|exact (Hl H)].
  apply repeat_spec in H. discriminate.
Qed.

Lemma drop_put n l : piece is_lf l -> drop_line is_lf n (put_line (repeat 32%N n) false l) = l.
Proof.
  intros Hp. unfold put_line. destruct l as [|x l]; [reflexivity|].
  destruct (is_lf x) eqn:Hx.
  - cbn [drop_line]. rewrite Hx. reflexivity.
  - clear Hp. induction n as [|n IH]; cbn [repeat app drop_line].
    + rewrite Hx. reflexivity.
    + replace (is_lf 32%N) with false by reflexivity. exact IH.
Qed.
Theorem dedent_indent s n skip : ~ In CR s -> dedent_by (indent_by s n skip) n skip = s.
Proof.
  intros HR. rewrite indent_by_spec by exact HR. rewrite dedent_by_spec by (apply indent_noCR; exact HR).
  rewrite split_put.
  - assert (P := split_pieces is_lf s). rewrite <- (split_concat is_lf s) at 2.
    assert (HD : forall ls, Forall (piece is_lf) ls ->
        drop_lines is_lf n false (map (put_line (repeat 32%N n) false) ls) = concat ls).
    { induction ls as [|k ks IH]; intros Hls; [reflexivity|]. inversion Hls; subst. cbn [map drop_lines concat].
      rewrite drop_put by assumption. rewrite IH by assumption. reflexivity. }
    destruct (split_incl is_lf s) as [|l ls]; [reflexivity|]. inversion P; subst.
    cbn [drop_lines concat]. rewrite HD by assumption.
    destruct skip; [reflexivity|]. rewrite drop_put by assumption. reflexivity.
  - intros x Hx. apply repeat_spec in Hx. subst x. reflexivity.
Qed.

(** ** Printing a dedented heredoc *)
Section Render.
  Context {E : Type} (render : E -> str).
  Definition render_sym (x : sym E) : str := match x with Ch c => [c] | El e => render e end.
  Definition render_syms (v : list (sym E)) : str := concat (map render_sym v).
  Definition render_tel (x : tel E) : str := match x with TLit s => s | TOther e => render e end.
  Definition render_all (t : list (tel E)) : str := concat (map render_tel t).
  Lemma render_symbols t : render_all t = render_syms (symbols t).
  Proof.
    unfold render_all, render_syms. induction t as [|[s|e] t IH]; [reflexivity| |]; cbn [map concat symbols render_tel].
    - rewrite map_app, concat_app, IH. f_equal. rewrite map_map. cbn [render_sym].
      clear. induction s as [|c s IHs]; cbn [map concat app] in *; congruence.
    - cbn [render_sym]. rewrite IH. reflexivity.
  Qed.

  Hypothesis one_line : forall e, ~ In LF (render e) /\ ~ In CR (render e) /\ render e <> [].

  Lemma render_app a b : render_syms (a ++ b) = render_syms a ++ render_syms b.
  Proof. unfold render_syms. rewrite map_app, concat_app. reflexivity. Qed.
  Lemma render_nolf v : (forall x, In x v -> sym_lf x = false) -> forall c, In c (render_syms v) -> is_lf c = false.
  Proof.
    intros H c Hc. unfold render_syms in Hc. apply in_concat in Hc. destruct Hc as [l [Hl Hc]].
    apply in_map_iff in Hl. destruct Hl as [x [<- Hx]]. specialize (H x Hx). destruct x as [d|e]; cbn in *.
    - destruct Hc as [<-|[]]. exact H.
    - destruct (is_lf c) eqn:E0; [|reflexivity]. apply is_lf_eq in E0. subst c. destruct (one_line e). contradiction.
  Qed.
  Lemma render_nonempty v : v <> [] -> render_syms v <> [].
  Proof.
    destruct v as [|[c|e] v]; intros H; [contradiction|discriminate|]. unfold render_syms. cbn [map concat render_sym].
    destruct (one_line e) as [_ [_ Hn]]. destruct (render e); [contradiction|discriminate].
  Qed.
  Lemma sym_piece_cons (l : list (sym E)) : piece sym_lf l ->
    (exists c, (forall x, In x c -> sym_lf x = false) /\ (l = c /\ c <> [] \/ l = c ++ [Ch LF])).
  Proof.
    intros [c [Hc Hl]]. exists c. split; [exact Hc|]. destruct Hl as [Hl|[x [-> Hx]]]; [left; exact Hl|right].
    destruct x as [d|e]; [|discriminate]. cbn in Hx. apply N.eqb_eq in Hx. subst d. reflexivity.
  Qed.
  Lemma split_render v : split_incl is_lf (render_syms v) = map render_syms (slines v).
  Proof.
    unfold slines. induction v as [|x v IH]; [reflexivity|].
    change (render_syms (x :: v)) with (render_sym x ++ render_syms v). cbn [split_incl].
    destruct (sym_lf x) eqn:Hx.
    - destruct x as [c|e]; [|discriminate]. cbn [render_sym app split_incl]. change (is_lf c) with (@sym_lf E (Ch c)).
      rewrite Hx, IH. reflexivity.
    - rewrite split_one.
      + rewrite IH. destruct (split_incl sym_lf v) as [|l ls]; cbn [map]; [|reflexivity].
        unfold render_syms at 1. cbn [map concat]. rewrite app_nil_r. reflexivity.
      + intros c Hc. destruct x as [d|e]; cbn in *.
        * destruct Hc as [<-|[]]. exact Hx.
        * destruct (is_lf c) eqn:E0; [|reflexivity]. apply is_lf_eq in E0. subst. destruct (one_line e). contradiction.
      + destruct x as [d|e]; cbn; [discriminate|]. apply one_line.
  Qed.

  (** Every removed column is made of spaces, and no line consists of the removed columns only. *)
  Definition space_columns (m : nat) (v : list (sym E)) : Prop :=
    forall l, In l (slines v) -> empty_line l = false ->
      firstn m l = repeat (Ch 32%N) m /\ skipn m l <> [] /\ empty_line (skipn m l) = false.

  Fixpoint but_last_ended (ls : list (list (sym E))) : Prop :=
    match ls with
    | [] => True
    | l :: ls => (ls <> [] -> ended sym_lf l) /\ but_last_ended ls
    end.
  Lemma split_but_last v : but_last_ended (slines v).
  Proof.
    unfold slines. induction v as [|x v IH]; [exact I|]. cbn [split_incl]. destruct (sym_lf x) eqn:Hx.
    - split; [|exact IH]. intros _. exists [], x. auto.
    - destruct (split_incl sym_lf v) as [|l ls]; [split; [intros H; contradiction|exact I]|].
      destruct IH as [H1 H2]. split; [|exact H2]. intros H. destruct (H1 H) as [c [y [-> Hy]]].
      exists (x :: c), y. auto.
  Qed.
  Lemma split_piece l : piece sym_lf l -> split_incl (@sym_lf E) l = [l].
  Proof.
    intros [c [Hc Hl]]. revert l Hl. induction c as [|x c IH]; intros l Hl.
    - destruct Hl as [[-> Hn]|[x [-> Hx]]]; [contradiction|]. cbn. rewrite Hx. reflexivity.
    - destruct Hl as [[-> Hn]|[y [-> Hy]]]; cbn [app split_incl]; rewrite (Hc x (or_introl eq_refl)).
      + destruct c as [|z c]; [reflexivity|].
        rewrite (IH (fun q Hq => Hc q (or_intror Hq)) (z :: c)); [reflexivity|]. left. split; [reflexivity|discriminate].
      + rewrite (IH (fun q Hq => Hc q (or_intror Hq)) (c ++ [y])); [reflexivity|]. right. exists y. auto.
  Qed.
  Lemma split_of_concat ls : Forall (piece sym_lf) ls -> but_last_ended ls ->
    split_incl (@sym_lf E) (concat ls) = ls.
  Proof.
    induction ls as [|l ls IH]; intros HF HE; [reflexivity|]. inversion HF; subst. destruct HE as [HE1 HE2].
    cbn [concat]. destruct ls as [|l' ls].
    - cbn [concat]. rewrite app_nil_r. apply split_piece. assumption.
    - rewrite split_all_ended.
      + rewrite split_piece by assumption. rewrite IH by assumption. reflexivity.
      + left. apply HE1. discriminate.
  Qed.
  Lemma piece_tl x (l : list (sym E)) : piece sym_lf (x :: l) -> l <> [] -> piece sym_lf l.
  Proof.
    intros [c [Hc Hl]] Hn. destruct c as [|y c].
    - destruct Hl as [[H1 H2]|[z [H1 H2]]]; [contradiction|]. cbn in H1. injection H1 as -> ->. contradiction.
    - exists c. split; [intros z Hz; apply Hc; right; exact Hz|].
      destruct Hl as [[H1 H2]|[z [H1 H2]]].
      + injection H1 as -> ->. left. auto.
      + cbn in H1. injection H1 as -> ->. right. exists z. auto.
  Qed.
  Lemma piece_skipn m : forall l : list (sym E), piece sym_lf l -> skipn m l <> [] -> piece sym_lf (skipn m l).
  Proof.
    induction m as [|m IH]; intros l Hp Hn; [exact Hp|].
    destruct l as [|x l]; [contradiction|]. cbn [skipn] in *. apply IH; [|exact Hn].
    apply (piece_tl x); [exact Hp|]. intros ->. destruct m; contradiction.
  Qed.
  Lemma ended_skipn m : forall l : list (sym E), ended sym_lf l -> skipn m l <> [] -> ended sym_lf (skipn m l).
  Proof.
    induction m as [|m IH]; intros l Hp Hn; [exact Hp|].
    destruct l as [|x l]; [contradiction|]. cbn [skipn] in *. apply IH; [|exact Hn].
    destruct Hp as [[|y c] [z [H1 H2]]]; cbn in H1; injection H1 as -> ->.
    - destruct m; contradiction.
    - exists c, z. auto.
  Qed.
  Lemma slines_drop m v : space_columns m v ->
    slines (drop_columns m v) = map (fun l => if empty_line l then l else skipn m l) (slines v).
  Proof.
    intros H. unfold drop_columns, slines. apply split_of_concat.
    - assert (P := split_pieces sym_lf v). apply Forall_forall. intros k Hk. apply in_map_iff in Hk.
      destruct Hk as [l [<- Hl]]. rewrite Forall_forall in P. specialize (P l Hl).
      destruct (empty_line l) eqn:He; [exact P|]. apply piece_skipn; [exact P|]. apply (H l Hl He).
    - assert (B := split_but_last v). unfold space_columns in H. unfold slines in *.
      induction (split_incl sym_lf v) as [|l ls IH]; [exact I|]. destruct B as [B1 B2]. split.
      + intros Hn. assert (ls <> []) as Hn' by (intros ->; contradiction). specialize (B1 Hn').
        destruct (empty_line l) eqn:He; [exact B1|]. apply ended_skipn; [exact B1|].
        apply (H l (or_introl eq_refl) He).
      + apply IH; [intros k Hk; apply H; right; exact Hk|exact B2].
  Qed.
  Lemma render_spaces m : render_syms (repeat (Ch 32%N) m) = repeat 32%N m.
  Proof. unfold render_syms. induction m as [|m IH]; [reflexivity|]. cbn [repeat map concat render_sym app]. f_equal. exact IH. Qed.

  Lemma noCR_render t : wf_template false t -> ~ In CR (render_all t).
  Proof.
    generalize false. induction t as [|[s|e] t IH]; intros flag H; [intros []| |]; unfold render_all in *; cbn [map concat wf_template render_tel] in *.
    - destruct H as [_ [_ [HR H]]]. intros HH. apply in_app_or in HH. destruct HH as [HH|HH]; [contradiction|]. exact (IH _ H HH).
    - intros HH. apply in_app_or in HH. destruct HH as [HH|HH]; [|exact (IH _ H HH)]. destruct (one_line e) as [_ [HR _]]. contradiction.
  Qed.

  Lemma indent_restores t t' m : wf_template false t ->
    symbols t' = drop_columns m (symbols t) -> space_columns m (symbols t) ->
    ~ In CR (render_all t') ->
    indent_by (render_all t') m false = render_all t.
  Proof.
    intros Hwf Hs Hc HR. rewrite indent_by_spec by exact HR. rewrite !render_symbols, Hs.
    rewrite split_render, slines_drop by exact Hc. rewrite <- (split_concat sym_lf (symbols t)) at 2.
    unfold space_columns in Hc. assert (P := split_pieces sym_lf (symbols t)). unfold slines in *.
    induction (split_incl sym_lf (symbols t)) as [|l ls IH]; [reflexivity|].
    inversion P as [|? ? Hp Hps]; subst. cbn [map put_lines concat]. rewrite render_app. f_equal.
    - destruct (empty_line l) eqn:He.
      + assert (Hn := piece_nonempty _ _ Hp). destruct l as [|x [|y l]]; [contradiction| |discriminate].
        cbn [empty_line] in He. destruct x as [c|e]; [|discriminate]. cbn in He. 
        unfold render_syms. cbn [map concat render_sym app]. unfold is_lf. rewrite He. reflexivity.
      + destruct (Hc l (or_introl eq_refl) He) as [H1 [H2 H3]].
        assert (Hl : render_syms l = repeat 32%N m ++ render_syms (skipn m l)).
        { rewrite <- (firstn_skipn m l) at 1. rewrite render_app, H1, render_spaces. reflexivity. }
        rewrite Hl. assert (Hr := render_nonempty _ H2).
        assert (HX : exists y k, render_syms (skipn m l) = y :: k /\ is_lf y = false).
        { destruct (skipn m l) as [|[c|e] k] eqn:Ek; [contradiction| |].
          - exists c, (render_syms k). split; [reflexivity|].
            assert (Pk : piece sym_lf (Ch c :: k)) by (rewrite <- Ek; apply piece_skipn; [exact Hp|rewrite Ek; discriminate]).
            destruct (is_lf c) eqn:E0; [|reflexivity]. exfalso.
            destruct Pk as [[|y w] [Hw Hl']].
            + destruct Hl' as [[Ha Hb]|[z [Ha Hb]]]; [contradiction|]. cbn [app] in Ha.
              rewrite Ha in H3. cbn [empty_line] in H3. congruence.
            + assert (Ch c = y) as <- by (destruct Hl' as [[Ha Hb]|[z [Ha Hb]]]; cbn in Ha; injection Ha; auto).
              specialize (Hw _ (or_introl eq_refl)). cbn in Hw. unfold is_lf in E0. congruence.
          - destruct (one_line e) as [Ha [_ Hb]]. unfold render_syms. cbn [map concat render_sym].
            destruct (render e) as [|y w]; [contradiction|]. exists y, (w ++ concat (map render_sym k)). split; [reflexivity|].
            destruct (is_lf y) eqn:E0; [|reflexivity]. apply is_lf_eq in E0. subst y. exfalso. apply Ha. left. reflexivity. }
        destruct HX as [y [k [-> Hy]]]. rewrite Hy. reflexivity.
    - apply IH; [intros k Hk; apply Hc; right; exact Hk|assumption].
  Qed.
End Render.

Lemma drop_columns_In {E} m (v : list (sym E)) x : In x (drop_columns m v) -> In x v.
Proof.
  unfold drop_columns. intros H. apply in_concat in H. destruct H as [k [Hk Hx]].
  apply in_map_iff in Hk. destruct Hk as [l [<- Hl]].
  rewrite <- (split_concat sym_lf v). apply in_concat. exists l. split; [exact Hl|].
  destruct (empty_line l); [exact Hx|]. rewrite <- (firstn_skipn m l). apply in_or_app. right. exact Hx.
Qed.
Lemma dedent_print {E} (render : E -> str) (t : list (tel E)) m :
  (forall e, ~ In LF (render e) /\ ~ In CR (render e) /\ render e <> []) ->
  wf_template false t -> least (indentations (symbols t)) m -> 1 <= m ->
  space_columns m (symbols t) ->
  indent_by (render_all render (fst (dedent t))) m false = render_all render t.
Proof.
  intros Hr Hwf Hm H1 Hc. destruct (dedent_common t m Hwf Hm H1) as [t' [-> Hs]]. cbn [fst].
  apply indent_restores; auto.
  intros HH. apply (noCR_render render Hr t Hwf). rewrite render_symbols in *. rewrite Hs in HH.
  unfold render_syms in *. apply in_concat in HH. destruct HH as [k [Hk HH]]. apply in_map_iff in Hk.
  destruct Hk as [x [<- Hx]]. apply drop_columns_In in Hx. apply in_concat. exists (render_sym render x).
  split; [apply in_map; exact Hx|exact HH].
Qed.
Lemma dedent_columns_ws {E} (v : list (sym E)) m l :
  (forall x, In x (indentations v) -> m <= x) -> In l (slines v) -> empty_line l = false ->
  Forall (fun x => sym_ws x = true) (firstn m l).
Proof.
  intros Hm Hl He. destruct (skipn_ws m l) as [_ HF].
  - apply Hm. unfold indentations. apply in_map. apply filter_In. split; [exact Hl|]. rewrite He. reflexivity.
  - eapply Forall_impl; [|exact HF]. intros x [H _]. exact H.
Qed.

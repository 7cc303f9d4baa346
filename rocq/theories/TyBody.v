(** Typed data as documents (C48). *)
From Coq Require Import NArith ZArith Bool String List Lia.
From Verif Require Import Res Str NumberModel NumberProofs PrimModel PrimProofs Ast EvalSpec EqSpec EqProofs EvalIp JsonModel ConvSpec FmtModel FmtReadSpec.
From Verif Require Import SerModel SerSpec SerProofs SerText DeModel TyModel TySpec TyBase TyProofs TyExpr TyGroup.
From Verif Require MapModel JsonProofs.
Import ListNotations.
Open Scope list_scope.

Section Body.
  Context (u : unicode) (b : build) (pf : str -> f64) (sf : f64 -> str) (c : cfg) (nested : top -> sd -> M bool) (interp : expr -> str).
  Context (HC : c_ident_keys c = false).
  Notation F := (fun s => flag s = true).
  Notation dee := (de interp (hcl_num b) (de_value b)).
  Notation kept := (kept u b pf sf ByText).
  Notation fits := (fits u b pf sf).
  Notation gives := (gives F).
  Notation readable := (exact_expr u b pf sf c).
  Notation body_readable := (exact_body u b pf sf c).
  Notation struct_readable := (exact_struct u b pf sf c).
  Notation blocks_ok := (blocks_ok u b pf sf c).
  Notation sect_ok := (sect_ok u b pf sf c).
  Notation ser_expr := (ser_expr u b nested).
  Notation ser_structs := (ser_structs u b nested).
  Notation typed_expr := (typed_expr u b pf sf c nested interp HC F).

  (** What holds in each place. *)
  Definition as_body (t : ty) (x : tv) : Prop := exists ss,
    gives (ser_structs (ser t x) KBody) ss /\ body_readable ss /\
    dee t (STop (expr_of_body ss)) = Some x /\ dee t (SExp (expr_of_body ss)) = Some x.
  Definition as_field (t : ty) (x : tv) (id : str) : Prop := exists ss n,
    gives (ser_structs (ser t x) (KStructure id)) ss /\ sect_ok (id, ss, n) /\
    dee t (SExp (expr_of_node n)) = Some x /\ (expr_of_node n = ENull -> nullish t x).
  Definition as_blocks (lab : bool) (t : ty) (x : tv) (id : str) : Prop := exists qs n,
    gives (ser_structs (ser t x) (if lab then KLabeled id else KBlock id)) (map (blk id) qs) /\ weave qs = Some n /\ Forall blocks_ok qs /\
    dee t (SExp (expr_of_node n)) = Some x /\ expr_of_node n <> ENull /\
    (lab = false -> one t -> exists body, qs = [bare body]).
  Definition Pb (t : ty) : Prop := forall p x, proper t -> has t x -> fits p t x ->
    match p with
    | PBody => as_body t x
    | PField => forall id, is_ident u id = true -> as_field t x id
    | PBlock => forall id, is_ident u id = true -> as_blocks false t x id
    | PLabel => forall id, is_ident u id = true -> as_blocks true t x id
    end.

  (** *** Attributes *)
  Definition simple (t : ty) (x : tv) : Prop := match t, x with TBlock _ _, _ => False | TOption _, XSome _ => False | _, _ => True end.
  Lemma prim_attr d id : prim (ser_expr d) (KStructure id) = fmap (attr id) (ser_expr d). Proof. reflexivity. Qed.
  Lemma field_attr t x id : proper t -> has t x -> simple t x -> forall s, ser_structs (ser t x) (KStructure id) s = fmap (attr id) (ser_expr (ser t x)) s.
  Proof.
    intros P H S s. destruct t as [|w| | | | | |t|t|ts|k t|n t|n fs|vs|lb t|]; try contradiction.
    1-11, 13-14: destruct x as [d|z|f|ch|st| | |x|l|l|i l|v]; try contradiction; try reflexivity.
    - cbn [ser]. destruct (signed w); reflexivity.
    - cbn [ser SerModel.ser_structs SerModel.ser_expr]. unfold fmap, bind. destruct (mapm _ _ s) as [[] ?]; reflexivity.
    - cbn [ser SerModel.ser_structs SerModel.ser_expr]. unfold fmap, bind. destruct (mapm _ _ s) as [[] ?]; reflexivity.
    - cbn [ser has] in *. unfold at_index in H. rewrite pick_nth in H. rewrite pick_nth. destruct (nth_error vs i) as [[n [|t|ts|fs]]|]; try contradiction; try reflexivity.
      destruct l as [|x [|]]; try contradiction. reflexivity.
    - cbn [ser SerModel.ser_structs SerModel.ser_expr newtype_kind]. destruct P as (P1 & P2 & P). apply seqb_neq in P1, P2. rewrite P1, P2. reflexivity.
    - destruct x as [d|z|f|ch|st| | |x|l|l|i l|v]; try contradiction. cbn [ser has] in *. rewrite ser_structs_value by exact H. unfold fmap, bind. now rewrite ser_expr_value by exact H.
  Qed.
  Lemma field_simple t x id : is_ident u id = true -> proper t -> has t x -> kept t x -> simple t x -> as_field t x id.
  Proof.
    intros HI P H K S. destruct (typed_expr t x P H K) as (e & G & D & RD & N). exists (attr id e), (JExpr e). split; [|split; [|split; [exact D|exact N]]].
    - eapply gives_eq; [intros s _; now apply field_attr|]. now apply gives_fmap.
    - split; [exact (group_attr id e)|]. split; [|now right]. split; [|exact I]. match goal with H : readable e |- _ => destruct H end. now split; [split|].
  Qed.

  (** *** Bodies *)
  Lemma ident_gives id : is_ident u id = true -> gives (ident_new u id) id.
  Proof. intros H. unfold ident_new. rewrite ident_try_new_ident by exact H. apply gives_ret. Qed.
  Lemma gives_sections {A B} (f : B -> M rbody) (h : A -> B) (Q : A -> sect -> Prop) l :
    Forall (fun x => exists r, gives (f (h x)) (s_body r) /\ Q x r) l ->
    exists rs, gives (concatm f (map h l)) (concat (map s_body rs)) /\ Forall2 Q l rs.
  Proof.
    intros H. enough (exists rs, gives (mapm f (map h l)) (map s_body rs) /\ Forall2 Q l rs) as (rs & G & R) by (exists rs; split; [now apply (gives_fmap F (@concat struct_))|exact R]).
    induction H as [|x l (r & H1 & H2) _ (rs & H3 & H4)]; cbn [map mapm].
    - exists []. split; [apply gives_ret|constructor].
    - exists (r :: rs). split; [|now constructor]. eapply gives_bind; [exact H1|]. eapply gives_bind; [exact H3|]. apply gives_ret.
  Qed.
  Lemma fields_body fs l : Forall (fun f => Pb (snd f)) fs -> lall (fun f : str * ty => match f with (_, t) => proper t end) fs ->
    all2 (fun f => match f with (_, t) => has t end) fs l ->
    all2 (fun f x => match f with (n, t) => is_ident u n = true /\ fits PField t x end) fs l -> NoDup (map fst fs) ->
    exists ss m, gives (concatm (fun p => match p with (k, x) => do! i <- ident_new u k; ser_structs x (KStructure i) end)
        (zip (fun f x => match f with (n, t) => (n, ser t x) end) fs l)) ss /\
      body_readable ss /\ expr_of_body ss = EObj m /\
      de_struct interp (fun f => match f with (_, t) => dee t end) fs (Some (expr_map m)) = Some l.
  Proof.
    intros IH P H K N. apply all2_combine in H as [L H]. apply all2_combine in K as [_ K]. rewrite zip_combine. apply lall_Forall in P.
    destruct (gives_sections (fun p => match p with (k, x) => do! i <- ident_new u k; ser_structs x (KStructure i) end)
      (fun p : (str * ty) * tv => match fst p with (n, t) => (n, ser t (snd p)) end)
      (fun p r => s_id r = fst (fst p) /\ sect_ok r /\ dee (snd (fst p)) (SExp (expr_of_node (s_node r))) = Some (snd p)) (combine fs l)) as (rs & G & R).
    - assert (A := combine_In_l _ _ l (Forall_and2 _ _ _ IH P)). rewrite Forall_forall in *. intros [[n t] x] Hp. destruct (A _ Hp) as [A1 A2]. destruct (K _ Hp) as [K1 K2].
      destruct (A1 PField x A2 (H _ Hp) K2 n K1) as (ss & nd & G & O & D & _). exists (n, ss, nd). split; [|split; [reflexivity|split; [exact O|exact D]]].
      cbn [fst snd]. eapply gives_bind; [now apply ident_gives|]. exact G.
    - assert (E : map s_id rs = map fst fs).
      { transitivity (map (fun p => fst (fst p)) (combine fs l)).
        - clear -R. induction R as [|? ? ? ? (E & _) _ IH]; cbn; congruence.
        - rewrite <- (map_map fst fst). now rewrite combine_fst. }
      assert (O : Forall sect_ok rs) by (eapply Forall2_Forall_r; [|exact R]; cbn; tauto).
      rewrite <- E in N. exists (concat (map s_body rs)), (map skeyed rs). split; [exact G|]. split; [now apply sections_readable|]. split.
      + apply sections_expr; [|exact N]. eapply Forall_impl; [|exact O]. intros r (Hr & _). exact Hr.
      + unfold expr_map. rewrite map_map. cbn [fst snd].
        replace (map (fun r => (SKey (fst (skeyed r)), SExp (snd (skeyed r)))) rs)
          with (combine (map (fun n => SKey (KExpr (EStr n))) (map s_id rs)) (map (fun r => SExp (expr_of_node (s_node r))) rs))
          by (clear; induction rs as [|r rs IH]; cbn; [reflexivity|]; now rewrite IH).
        rewrite E in *. rewrite de_struct_map; [|exact N| |].
        * apply de_tuple_2; [exact L|]. apply Forall2_map_r. eapply Forall2_impl; [|exact R]. cbn. intros [[n t] x] r (_ & _ & D). exact D.
        * rewrite map_length. rewrite <- (map_length fst fs), <- E, map_length. reflexivity.
        * apply Forall2_same. intros n. reflexivity.
  Qed.
  Lemma entries_body k t l : Pb t -> proper (TMap k t) -> has (TMap k t) (XMap l) ->
    lall (fun e => ident_key u k (fst e) /\ fits PField t (snd e)) l ->
    exists ss, gives (concatm (fun p => match p with (k, x) => do! i <- ser_ident u nested k; ser_structs x (KStructure i) end)
        (map (fun p => (ser k (fst p), ser t (snd p))) l)) ss /\
      body_readable ss /\ dee (TMap k t) (SExp (expr_of_body ss)) = Some (XMap l) /\ dee (TMap k t) (STop (expr_of_body ss)) = Some (XMap l) /\
      expr_of_body ss <> ENull.
  Proof.
    intros IH [Pk P] [H N] K. apply lall_Forall in H, K.
    destruct (gives_sections (fun p => match p with (k, x) => do! i <- ser_ident u nested k; ser_structs x (KStructure i) end)
      (fun p => (ser k (fst p), ser t (snd p)))
      (fun p r => sect_ok r /\ dee k (SKey (KExpr (EStr (s_id r)))) = Some (fst p) /\ dee t (SExp (expr_of_node (s_node r))) = Some (snd p)) l) as (rs & G & R).
    - rewrite Forall_forall in *. intros [y x] Hp. destruct (H _ Hp) as [H1 H2], (K _ Hp) as [K1 K2]. cbn [fst snd] in *.
      assert (A : exists id, gives (ser_ident u nested (ser k y)) id /\ is_ident u id = true /\ dee k (SKey (KExpr (EStr id))) = Some y).
      { destruct k, y; try contradiction; cbn [ident_key] in K1; eexists; (split; [cbn [ser ser_ident]; now apply ident_gives|]); (split; [exact K1|reflexivity]). }
      destruct A as (id & A1 & A2 & A3). destruct (IH PField x P H2 K2 id A2) as (ss & nd & G & O & D & _). exists (id, ss, nd). split; [|split; [exact O|split; [exact A3|exact D]]].
      eapply gives_bind; [exact A1|]. exact G.
    - assert (O : Forall sect_ok rs) by (eapply Forall2_Forall_r; [|exact R]; cbn; tauto).
      assert (Nr : NoDup (map s_id rs)).
      { apply (nodup_image (fun s => dee k (SKey (KExpr (EStr s)))) (map fst l)); [|exact N]. clear -R. induction R as [|p q l qs (R1 & R2 & R3) _ IH]; cbn; constructor; auto. }
      assert (E : expr_of_body (concat (map s_body rs)) = EObj (map skeyed rs)).
      { apply sections_expr; [|exact Nr]. eapply Forall_impl; [|exact O]. intros r (Hr & _). exact Hr. }
      assert (D : option_map (fun l => XMap (MapModel.from_iter key_eqb l))
        (de_all (fun p => match dee k (fst p), dee t (snd p) with Some x, Some y => Some (x, y) | _, _ => None end) (map (fun p => (SKey (fst p), SExp (snd p))) (map skeyed rs))) = Some (XMap l)).
      { rewrite (de_all_2 _ _ l).
        - cbn [option_map]. rewrite from_iter_fresh; [reflexivity|]. apply nodup_differ; [exact key_eqb_eq|exact N].
        - clear -R. induction R as [|p r l rs (_ & R1 & R2) _ IH]; cbn; constructor; auto. cbn. rewrite R1, R2. now destruct p. }
      exists (concat (map s_body rs)). split; [exact G|]. split; [now apply sections_readable|]. rewrite E. split; [exact D|]. split; [exact D|discriminate].
  Qed.

  (** *** Blocks *)
  (** One block. *)
  Lemma one_block t x id ss : gives (ser_structs (ser t x) (KBlock id)) [SBlk id [] ss] -> body_readable ss -> dee t (SExp (expr_of_body ss)) = Some x ->
    expr_of_body ss <> ENull -> as_blocks false t x id.
  Proof.
    intros G R D N. exists [bare ss], (JBody [expr_of_body ss]). split; [exact G|]. split; [reflexivity|]. split; [constructor; [split; [constructor|exact R]|constructor]|].
    split; [exact D|]. split; [exact N|]. eauto.
  Qed.
  Lemma blocks_body id qs : is_ident u id = true -> Forall blocks_ok qs -> forall n, weave qs = Some n ->
    body_readable (map (blk id) qs) /\ expr_of_body (map (blk id) qs) = EObj [(KExpr (EStr id), expr_of_node n)].
  Proof.
    intros HI H n W. assert (O : Forall sect_ok [(id, map (blk id) qs, n)]).
    { constructor; [|constructor]. split; [now apply group_blocks|]. now apply blocks_readable. }
    assert (E : map (blk id) qs = concat (map s_body [(id, map (blk id) qs, n)])) by (cbn; now rewrite app_nil_r).
    assert (N : NoDup (map s_id [(id, map (blk id) qs, n)])) by (constructor; [tauto|constructor]).
    split; [rewrite E; now apply sections_readable|]. rewrite E at 1. rewrite sections_expr; [reflexivity| |exact N].
    eapply Forall_impl; [|exact O]. intros r (Hr & _). exact Hr.
  Qed.
  Lemma field_body t x id ss n : gives (ser_structs (ser t x) (KStructure id)) ss -> sect_ok (id, ss, n) ->
    body_readable ss /\ expr_of_body ss = EObj [(KExpr (EStr id), expr_of_node n)].
  Proof.
    intros G O0. assert (O : Forall sect_ok [(id, ss, n)]) by (constructor; [exact O0|constructor]).
    assert (E : ss = concat (map s_body [(id, ss, n)])) by (cbn; now rewrite app_nil_r).
    assert (N : NoDup (map s_id [(id, ss, n)])) by (constructor; [tauto|constructor]).
    split; [rewrite E; now apply sections_readable|]. rewrite E at 1. rewrite sections_expr; [reflexivity| |exact N].
    eapply Forall_impl; [|exact O]. intros r (Hr & _). exact Hr.
  Qed.
  (** Several blocks: the elements of a sequence with their types. *)
  Lemma seq_blocks (ps : list (ty * tv)) id : is_ident u id = true -> several ps ->
    Forall (fun p => Pb (fst p) /\ proper (fst p) /\ has (fst p) (snd p) /\ one (fst p) /\ fits PBlock (fst p) (snd p)) ps ->
    exists bodies, gives (concatm (fun x => ser_structs x (KBlock id)) (map (fun p => ser (fst p) (snd p)) ps)) (map (blk id) (map bare bodies)) /\
      weave (map bare bodies) = Some (JBody (map expr_of_body bodies)) /\ Forall blocks_ok (map bare bodies) /\
      expr_of_node (JBody (map expr_of_body bodies)) = EArr (map expr_of_body bodies) /\
      Forall2 (fun p body => dee (fst p) (SExp (expr_of_body body)) = Some (snd p)) ps bodies.
  Proof.
    intros HI S H.
    assert (A : exists bodies, gives (mapm (fun x => ser_structs x (KBlock id)) (map (fun p => ser (fst p) (snd p)) ps)) (map (fun body => [blk id (bare body)]) bodies) /\
      Forall2 (fun p body => dee (fst p) (SExp (expr_of_body body)) = Some (snd p) /\ blocks_ok (bare body)) ps bodies).
    { clear S. induction H as [|[t x] ps (H1 & H2 & H3 & H4 & H5) _ (bodies & G & R)]; cbn [map mapm].
      - exists []. split; [apply gives_ret|constructor].
      - cbn [fst snd] in *. destruct (H1 PBlock x H2 H3 H5 id HI) as (qs & n & G1 & W & O & D & _ & S). destruct (S eq_refl H4) as (body & ->). cbn in W. injection W as <-. cbn [expr_of_node] in D.
        exists (body :: bodies). split; [|constructor; [|exact R]].
        + eapply gives_bind; [exact G1|]. eapply gives_bind; [exact G|]. apply gives_ret.
        + split; [exact D|]. now inversion O. }
    destruct A as (bodies & G & R). exists bodies. assert (L := Forall2_length _ _ _ R). split; [|split; [|split; [|split]]].
    - rewrite map_map. replace (map (fun x => blk id (bare x)) bodies) with (concat (map (fun body => [blk id (bare body)]) bodies)).
      + now apply (gives_fmap F (@concat struct_)).
      + clear. induction bodies as [|x l IH]; cbn; [reflexivity|]. now rewrite IH.
    - apply weave_bare. intros ->. unfold several in S. rewrite L in S. cbn in S. lia.
    - apply Forall_forall. intros q Hq. apply in_map_iff in Hq as (body & <- & Hq). assert (FO : Forall (fun body => blocks_ok (bare body)) bodies) by (eapply Forall2_Forall_r; [|exact R]; cbn; tauto).
      rewrite Forall_forall in FO. auto.
    - apply (several_arr ps); [exact S|]. now rewrite map_length.
    - eapply Forall2_impl; [|exact R]. cbn. tauto.
  Qed.

  (** *** Blocks with labels *)
  Lemma gives_labels {A B} (f : B -> M rbody) (h : A -> B) id (Q : A -> lsect -> Prop) l :
    Forall (fun x => exists r, gives (f (h x)) (map (blk id) (l_pushed r)) /\ Q x r) l ->
    exists rs, gives (concatm f (map h l)) (map (blk id) (concat (map l_pushed rs))) /\ Forall2 Q l rs.
  Proof.
    intros H. enough (exists rs, gives (mapm f (map h l)) (map (fun r => map (blk id) (l_pushed r)) rs) /\ Forall2 Q l rs) as (rs & G & R).
    { exists rs. split; [|exact R]. rewrite concat_map, map_map. now apply (gives_fmap F (@concat struct_)). }
    induction H as [|x l (r & H1 & H2) _ (rs & H3 & H4)]; cbn [map mapm].
    - exists []. split; [apply gives_ret|constructor].
    - exists (r :: rs). split; [|now constructor]. eapply gives_bind; [exact H1|]. eapply gives_bind; [exact H3|]. apply gives_ret.
  Qed.
  Definition lsect_ok (r : lsect) : Prop := weave (l_blocks r) = Some (l_node r) /\ escape_ok (l_id r) = true /\ Forall blocks_ok (l_blocks r).
  Lemma labels_ok rs : Forall lsect_ok rs -> rs <> [] -> NoDup (map l_id rs) ->
    weave (concat (map l_pushed rs)) = Some (JMap (map (fun r => (l_id r, l_node r)) rs)) /\ Forall blocks_ok (concat (map l_pushed rs)).
  Proof.
    intros H N0 N. split.
    - apply weave_sections; [exact N0| |exact N]. eapply Forall_impl; [|exact H]. intros r (Hr & _). exact Hr.
    - clear N0 N. induction H as [|r rs (_ & H1 & H2) _ IH]; cbn; [constructor|]. apply Forall_app. split; [now apply push_ok|exact IH].
  Qed.
  Lemma fields_labels fs l id : is_ident u id = true -> Forall (fun f => Pb (snd f)) fs -> lall (fun f : str * ty => match f with (_, t) => proper t end) fs ->
    all2 (fun f => match f with (_, t) => has t end) fs l -> l <> [] ->
    all2 (fun f x => match f with (n, t) => escape_ok n = true /\ fits PBlock t x end) fs l -> NoDup (map fst fs) ->
    exists qs m, gives (concatm (fun p => match p with (k, x) => fmap (relabel (cons (BLString k))) (ser_structs x (KBlock id)) end)
        (zip (fun f x => match f with (n, t) => (n, ser t x) end) fs l)) (map (blk id) qs) /\
      weave qs = Some (JMap m) /\ Forall blocks_ok qs /\
      exists m', expr_of_node (JMap m) = EObj m' /\ de_struct interp (fun f => match f with (_, t) => dee t end) fs (Some (expr_map m')) = Some l.
  Proof.
    intros HI IH P H N0 K N. apply all2_combine in H as [L H]. apply all2_combine in K as [_ K]. rewrite zip_combine. apply lall_Forall in P.
    destruct (gives_labels (fun p => match p with (k, x) => fmap (relabel (cons (BLString k))) (ser_structs x (KBlock id)) end)
      (fun p : (str * ty) * tv => match fst p with (n, t) => (n, ser t (snd p)) end) id
      (fun p r => l_id r = fst (fst p) /\ lsect_ok r /\ dee (snd (fst p)) (SExp (expr_of_node (l_node r))) = Some (snd p)) (combine fs l)) as (rs & G & R).
    - assert (A := combine_In_l _ _ l (Forall_and2 _ _ _ IH P)). rewrite Forall_forall in *. intros [[n t] x] Hp. destruct (A _ Hp) as [A1 A2]. destruct (K _ Hp) as [K1 K2].
      destruct (A1 PBlock x A2 (H _ Hp) K2 id HI) as (qs & nd & G & W & O & D & _). exists (n, qs, nd). split; [|split; [reflexivity|split; [split; [exact W|split; [exact K1|exact O]]|exact D]]].
      cbn [fst snd]. unfold l_pushed, l_id, l_blocks. cbn [fst snd]. rewrite <- relabel_blk. now apply gives_fmap.
    - assert (E : map l_id rs = map fst fs).
      { transitivity (map (fun p => fst (fst p)) (combine fs l)).
        - clear -R. induction R as [|? ? ? ? (E & _) _ IH]; cbn; congruence.
        - rewrite <- (map_map fst fst). now rewrite combine_fst. }
      assert (O : Forall lsect_ok rs) by (eapply Forall2_Forall_r; [|exact R]; cbn; tauto).
      assert (NR : rs <> []) by (intros ->; destruct fs; [destruct l; [contradiction|discriminate]|discriminate]).
      rewrite <- E in N. destruct (labels_ok rs O NR N) as [W B]. eexists. eexists. split; [exact G|]. split; [exact W|]. split; [exact B|].
      exists (map l_keyed rs). split; [now apply labels_expr|].
      unfold expr_map. rewrite map_map. cbn [fst snd].
      replace (map (fun r => (SKey (fst (l_keyed r)), SExp (snd (l_keyed r)))) rs)
        with (combine (map (fun n => SKey (KExpr (EStr n))) (map l_id rs)) (map (fun r => SExp (expr_of_node (l_node r))) rs))
        by (clear; induction rs as [|r rs IH]; cbn; [reflexivity|]; now rewrite IH).
      rewrite E in *. rewrite de_struct_map; [|exact N| |].
      + apply de_tuple_2; [exact L|]. apply Forall2_map_r. eapply Forall2_impl; [|exact R]. cbn. intros [[n t] x] r (_ & _ & D). exact D.
      + rewrite map_length. rewrite <- (map_length fst fs), <- E, map_length. reflexivity.
      + apply Forall2_same. intros n. reflexivity.
  Qed.
  Lemma entries_labels k t l id : is_ident u id = true -> Pb t -> proper (TMap k t) -> has (TMap k t) (XMap l) -> l <> [] ->
    lall (fun e => label_key k (fst e) /\ fits PBlock t (snd e)) l -> as_blocks true (TMap k t) (XMap l) id.
  Proof.
    intros HI IH [Pk P] [H N] N0 K. apply lall_Forall in H, K.
    destruct (gives_labels (fun p => match p with (k, x) => do! l <- ser_string nested k; fmap (relabel (cons (BLString l))) (ser_structs x (KBlock id)) end)
      (fun p => (ser k (fst p), ser t (snd p))) id
      (fun p r => lsect_ok r /\ dee k (SKey (KExpr (EStr (l_id r)))) = Some (fst p) /\ dee t (SExp (expr_of_node (l_node r))) = Some (snd p)) l) as (rs & G & R).
    - rewrite Forall_forall in *. intros [y x] Hp. destruct (H _ Hp) as [H1 H2], (K _ Hp) as [K1 K2]. cbn [fst snd] in *.
      assert (A : exists s, gives (ser_string nested (ser k y)) s /\ escape_ok s = true /\ dee k (SKey (KExpr (EStr s))) = Some y).
      { destruct k, y; try contradiction; cbn [label_key] in K1; eexists; (split; [cbn [ser ser_string]; apply gives_ret|]); (split; [exact K1|reflexivity]). }
      destruct A as (s & A1 & A2 & A3). destruct (IH PBlock x P H2 K2 id HI) as (qs & nd & G & W & O & D & _). exists (s, qs, nd). split; [|split; [split; [exact W|split; [exact A2|exact O]]|split; [exact A3|exact D]]].
      eapply gives_bind; [exact A1|]. unfold l_pushed, l_id, l_blocks. cbn [fst snd]. rewrite <- relabel_blk. now apply gives_fmap.
    - assert (O : Forall lsect_ok rs) by (eapply Forall2_Forall_r; [|exact R]; cbn; tauto).
      assert (Nr : NoDup (map l_id rs)).
      { apply (nodup_image (fun s => dee k (SKey (KExpr (EStr s)))) (map fst l)); [|exact N]. clear -R. induction R as [|p q l qs (R1 & R2 & R3) _ IH]; cbn; constructor; auto. }
      assert (NR : rs <> []) by (intros ->; inversion R; subst; contradiction).
      destruct (labels_ok rs O NR Nr) as [W B]. eexists. eexists. split; [exact G|]. split; [exact W|]. split; [exact B|]. rewrite labels_expr by exact Nr.
      split; [|split; [discriminate|discriminate]]. cbn [de ask ask_expr]. unfold expr_map. rewrite map_map. cbn [fst snd].
      rewrite (de_all_2 _ _ l).
      + cbn [option_map]. rewrite from_iter_fresh; [reflexivity|]. apply nodup_differ; [exact key_eqb_eq|exact N].
      + clear -R. induction R as [|p r l rs (_ & R1 & R2) _ IH]; cbn; constructor; auto. cbn. rewrite R1, R2. now destruct p.
  Qed.
  (** One label before all of them. *)
  Lemma push_weave v qs n : weave qs = Some n -> weave (map (push v) qs) = Some (JMap [(v, n)]).
  Proof.
    intros W. replace (map (push v) qs) with (concat (map l_pushed [(v, qs, n)])) by (cbn; now rewrite app_nil_r).
    rewrite weave_sections; [reflexivity|discriminate| |]; [constructor; [exact W|constructor]|constructor; [tauto|constructor]].
  Qed.

  (** *** Places of types that wrap another one *)
  (** A label put before the labels of each block. *)
  Lemma relabel_app f l m : relabel f (l ++ m) = relabel f l ++ relabel f m.
  Proof. unfold relabel. apply flat_map_app. Qed.
  Lemma relabel_relabel f g l : relabel f (relabel g l) = relabel (fun ls => f (g ls)) l.
  Proof. unfold relabel. induction l as [|x l IH]; cbn; [reflexivity|]. destruct x; cbn; rewrite IH; reflexivity. Qed.
  Lemma relabel_mapm {A} f (g g' : A -> M (list struct_)) (E : forall x s, g' x s = fmap (relabel f) (g x) s) l : forall ys s s',
    mapm g l s = (SOk ys, s') -> mapm g' l s = (SOk (map (relabel f) ys), s').
  Proof.
    induction l as [|x l IH]; intros ys s s' H.
    - injection H as <- <-. reflexivity.
    - change (bind (g x) (fun y => bind (mapm g l) (fun ys => ret (y :: ys))) s = (SOk ys, s')) in H.
      change (bind (g' x) (fun y => bind (mapm g' l) (fun ys => ret (y :: ys))) s = (SOk (map (relabel f) ys), s')).
      unfold bind, ret in *. rewrite E. unfold fmap, bind, ret. destruct (g x s) as [[z| | |] s1]; try discriminate.
      destruct (mapm g l s1) as [[zs| | |] s2] eqn:E2; try discriminate. injection H as <- <-. now rewrite (IH _ _ _ E2).
  Qed.
  Lemma relabel_concatm {A} f (g g' : A -> M (list struct_)) l y : (forall x s, g' x s = fmap (relabel f) (g x) s) ->
    gives (concatm g l) y -> gives (concatm g' l) (relabel f y).
  Proof.
    intros E G s Hs. specialize (G s Hs). unfold concatm, fmap, bind, ret in *. destruct (mapm g l s) as [[ys| | |] s1] eqn:E1; try discriminate. injection G as <- ->.
    rewrite (relabel_mapm f g g' E _ _ _ _ E1). f_equal. f_equal. unfold relabel. clear. induction ys as [|y ys IH]; [reflexivity|]. cbn [map concat]. now rewrite flat_map_app, IH.
  Qed.
  Lemma marked_gives (lb : bool) t x k k' ss : newtype_kind (if lb then labeled_marker else block_marker) k = Some k' ->
    gives (ser_structs (ser t x) k') ss -> gives (ser_structs (ser (TBlock lb t) x) k) ss.
  Proof.
    intros E G s Hs. cbn [ser SerModel.ser_structs]. unfold bind, internal. rewrite Hs, E. now apply G.
  Qed.
  Lemma new_gives n t x k k' ss : newtype_kind n k = Some k' ->
    gives (ser_structs (ser t x) k') ss -> gives (ser_structs (ser (TNew n t) x) k) ss.
  Proof. intros E G. cbn [ser SerModel.ser_structs]. rewrite E. exact G. Qed.
  Lemma newtype_block n t id : proper (TNew n t) -> newtype_kind n (KBlock id) = Some (KBlock id).
  Proof. intros (_ & H & _). apply seqb_neq in H. cbn [newtype_kind]. now rewrite H. Qed.
  Lemma as_blocks_imp (lab lab' : bool) t t' x x' id :
    (forall qs, gives (ser_structs (ser t x) (if lab then KLabeled id else KBlock id)) (map (blk id) qs) ->
                gives (ser_structs (ser t' x') (if lab' then KLabeled id else KBlock id)) (map (blk id) qs)) ->
    (forall e, e <> ENull -> dee t (SExp e) = Some x -> dee t' (SExp e) = Some x') ->
    (lab' = false -> one t' -> lab = false /\ one t) -> as_blocks lab t x id -> as_blocks lab' t' x' id.
  Proof.
    intros H1 H2 H3 (qs & n & G & W & O & D & N & S). exists qs, n. split; [auto|]. split; [exact W|]. split; [exact O|]. split; [auto|]. split; [exact N|].
    intros E1 E2. destruct (H3 E1 E2). auto.
  Qed.
  Lemma as_blocks_field lab t x id : is_ident u id = true -> as_blocks lab t x id -> as_field (TBlock lab t) x id.
  Proof.
    intros HI (qs & n & G & W & O & D & N & _). exists (map (blk id) qs), n. split; [|split; [|split; [exact D|intros E; contradiction]]].
    - eapply marked_gives; [|exact G]. now destruct lab.
    - split; [now apply group_blocks|]. now apply blocks_readable.
  Qed.

  Lemma variant_body vs i n s l e : NoDup (map fst vs) -> nth_error vs i = Some (n, s) ->
    match s with
    | ShUnit => False
    | ShNew t => match l with [x] => dee t (SExp e) = Some x | _ => False end
    | ShTuple ts => exists es, e = EArr es /\ de_tuple dee ts (map SExp es) = Some l
    | ShStruct fs => exists m, e = EObj m /\ de_struct interp (fun f => match f with (_, t) => dee t end) fs (Some (expr_map m)) = Some l
    end ->
    dee (TEnum vs) (SExp (EObj [(KExpr (EStr n), e)])) = Some (XVar i l) /\ dee (TEnum vs) (STop (EObj [(KExpr (EStr n), e)])) = Some (XVar i l).
  Proof.
    intros N E H. enough (D : dee (TEnum vs) (SExp (EObj [(KExpr (EStr n), e)])) = Some (XVar i l)) by (split; exact D).
    cbn [de ask ask_expr]. unfold variant_ref, field_ref. cbn [ask ask_key key_any expr_any]. rewrite (nodup_nth_name _ _ _ _ N E). rewrite pick_nth, E.
    destruct s as [|t|ts|fs]; [contradiction| | |].
    - destruct l as [|x [|]]; try contradiction. cbn [variant_src]. rewrite H. reflexivity.
    - destruct H as (es & -> & H). cbn [ask_variant ask_expr expr_seq]. rewrite H. reflexivity.
    - destruct H as (m & -> & H). cbn [ask_variant ask_expr]. rewrite H. reflexivity.
  Qed.
  Lemma label_expr n nd : expr_of_node (JMap [(n, nd)]) = EObj [(KExpr (EStr n), expr_of_node nd)].
  Proof. change [(n, nd)] with (map (fun r => (l_id r, l_node r)) [(n, [], nd)]). rewrite labels_expr by (constructor; [tauto|constructor]). reflexivity. Qed.
  Lemma several_length {A B} (l : list A) (m : list B) : several l -> length m = length l -> several m.
  Proof. unfold several. intros H ->. exact H. Qed.
  Lemma tuple_pairs ts l : Forall Pb ts -> lall proper ts -> all2 has ts l -> all2 (fun t x => one t /\ fits PBlock t x) ts l ->
    length ts = length l /\ zip ser ts l = map (fun p => ser (fst p) (snd p)) (combine ts l) /\
    Forall (fun p => Pb (fst p) /\ proper (fst p) /\ has (fst p) (snd p) /\ one (fst p) /\ fits PBlock (fst p) (snd p)) (combine ts l).
  Proof.
    intros IH P H K. apply all2_combine in H as [L H]. apply all2_combine in K as [_ K]. split; [exact L|]. split; [apply zip_combine|].
    apply lall_Forall in P. assert (A := combine_In_l _ _ l (Forall_and2 _ _ _ IH P)). rewrite Forall_forall in *. intros p Hp. destruct (A p Hp), (K p Hp). auto.
  Qed.

  Lemma typed_body t : Pb t.
  Proof.
    induction t as [|w| | | | | |t IH|t IH|ts IH|k t IHk IH|n t IH|n fs IH|vs IH|lb t IH|] using ty_all; intros p x P H K.
    - destruct p; cbn in K; try (destruct x; contradiction). intros id HI. now apply field_simple.
    - destruct p; cbn in K; try (destruct x; contradiction). intros id HI. now apply field_simple.
    - destruct p; cbn in K; try (destruct x; contradiction). intros id HI. now apply field_simple.
    - destruct p; cbn in K; try (destruct x; contradiction). intros id HI. now apply field_simple.
    - destruct p; cbn in K; try (destruct x; contradiction). intros id HI. now apply field_simple.
    - destruct p; cbn in K; try (destruct x; contradiction). intros id HI. now apply field_simple.
    - destruct p; cbn in K; try (destruct x; contradiction). intros id HI. now apply field_simple.
    - (* TOption *)
      destruct p; try (destruct x; contradiction); intros id HI.
      + destruct x as [| | | | | | |x| | | |]; try contradiction; [now apply field_simple|]. cbn [TySpec.fits] in K. destruct K as [K KN].
        destruct (IH PField x P H K id HI) as (ss & n & G & O & D & N). exists ss, n. split; [exact G|]. split; [exact O|]. split; [|intros E; now apply N].
        cbn [de ask ask_expr]. destruct (expr_of_node n); try (now rewrite D). destruct (KN (N eq_refl)).
      + destruct x as [| | | | | | |x| | | |]; try contradiction. cbn [TySpec.fits] in K. assert (A := IH PBlock x P H K id HI). revert A. apply as_blocks_imp; auto.
        intros e Ne D. cbn [de ask ask_expr]. destruct e; try (now rewrite D). contradiction.
      + destruct x as [| | | | | | |x| | | |]; try contradiction. cbn [TySpec.fits] in K. assert (A := IH PLabel x P H K id HI). revert A. apply as_blocks_imp; auto; try discriminate.
        intros e Ne D. cbn [de ask ask_expr]. destruct e; try (now rewrite D). contradiction.
    - (* TSeq *)
      destruct p; try (destruct x; contradiction); intros id HI; [now apply field_simple|].
      destruct x as [| | | | | | | |l| | |]; try contradiction. cbn [TySpec.fits has] in *. destruct K as (S & O & K). apply lall_Forall in H, K.
      destruct (seq_blocks (map (fun x => (t, x)) l) id HI) as (bodies & G & W & B & E & R).
      + eapply several_length; [exact S|]. now rewrite map_length.
      + apply Forall_forall. intros q Hq. apply in_map_iff in Hq as (x & <- & Hx). rewrite Forall_forall in *. cbn [fst snd]. exact (conj IH (conj P (conj (H x Hx) (conj O (K x Hx))))).
      + exists (map bare bodies), (JBody (map expr_of_body bodies)). split; [|split; [exact W|split; [exact B|]]].
        * cbn [ser SerModel.ser_structs]. rewrite map_map in G. exact G.
        * rewrite E. split; [|split; [discriminate|intros _ []]]. cbn [de ask ask_expr expr_seq]. rewrite (de_all_2 _ _ l); [reflexivity|].
          rewrite map_map. clear -R. revert bodies R. induction l as [|x l IH]; intros bodies R; inversion R; subst; cbn; constructor; auto.
    - (* TTuple *)
      destruct p; try (destruct x; contradiction); intros id HI; [now apply field_simple|].
      destruct x as [| | | | | | | |l| | |]; try contradiction. cbn [TySpec.fits has proper] in *. destruct K as (S & K).
      destruct (tuple_pairs ts l IH P H K) as (L & Z & A). destruct (seq_blocks (combine ts l) id HI) as (bodies & G & W & B & E & R); [|exact A|].
      + eapply several_length; [exact S|]. rewrite combine_length. lia.
      + exists (map bare bodies), (JBody (map expr_of_body bodies)). split; [|split; [exact W|split; [exact B|]]].
        * cbn [ser SerModel.ser_structs]. rewrite Z. exact G.
        * rewrite E. split; [|split; [discriminate|intros _ []]]. cbn [de ask ask_expr expr_seq]. rewrite (de_tuple_2 _ _ l); [reflexivity|exact L|].
          do 2 apply Forall2_map_r. exact R.
    - (* TMap *)
      destruct p; try (destruct x; contradiction).
      + destruct x as [| | | | | | | | |l| |]; try contradiction. destruct (entries_body k t l IH P H K) as (ss & G & R & D1 & D2 & _).
        exists ss. split; [exact G|]. split; [exact R|]. split; [exact D2|exact D1].
      + intros id HI. now apply field_simple.
      + intros id HI. destruct x as [| | | | | | | | |l| |]; try contradiction. destruct (entries_body k t l IH P H K) as (ss & G & R & D1 & D2 & N).
        apply (one_block _ _ _ ss); auto. cbn [ser SerModel.ser_structs]. eapply gives_bind; [exact G|]. apply gives_ret.
      + intros id HI. destruct x as [| | | | | | | | |l| |]; try contradiction. cbn [TySpec.fits] in K. destruct K as [K1 K2]. now apply entries_labels.
    - (* TNew *)
      destruct p.
      + destruct (IH PBody x (proj2 (proj2 P)) H K) as (ss & G & R & D1 & D2). exists ss. split; [exact G|]. split; [exact R|]. split; [exact D2|exact D2].
      + intros id HI. now apply field_simple.
      + intros id HI. assert (A := IH PBlock x (proj2 (proj2 P)) H K id HI). revert A. apply as_blocks_imp; auto. intros qs G. eapply new_gives; [|exact G]. now apply (newtype_block n t).
      + intros id HI. assert (A := IH PLabel x (proj2 (proj2 P)) H K id HI). revert A. apply as_blocks_imp; auto; try discriminate.
    - (* TStruct *)
      assert (P0 := P). destruct P as (P1 & P2 & N & P). apply seqb_neq in P1, P2. destruct p; try (destruct x; contradiction).
      + destruct x as [| | | | | | | |l| | |]; try contradiction. destruct (fields_body fs l IH P H K N) as (ss & m & G & R & E & D).
        exists ss. split; [cbn [ser SerModel.ser_structs]; unfold structs_struct; rewrite P1, P2; exact G|]. split; [exact R|].
        rewrite E. split; cbn [de ask ask_top ask_expr expr_any]; now rewrite D.
      + intros id HI. now apply field_simple.
      + intros id HI. destruct x as [| | | | | | | |l| | |]; try contradiction. destruct (fields_body fs l IH P H K N) as (ss & m & G & R & E & D).
        apply (one_block _ _ _ ss); [|exact R| |rewrite E; discriminate].
        * cbn [ser SerModel.ser_structs]. unfold structs_struct. eapply gives_bind; [exact G|]. apply gives_ret.
        * rewrite E. cbn [de ask ask_expr]. now rewrite D.
      + intros id HI. destruct x as [| | | | | | | |l| | |]; try contradiction. cbn [TySpec.fits] in K. destruct K as [K1 K2].
        destruct (fields_labels fs l id HI IH P H K1 K2 N) as (qs & m & G & W & B & m' & E & D). exists qs, (JMap m). split; [exact G|]. split; [exact W|]. split; [exact B|].
        rewrite E. split; [|split; [discriminate|discriminate]]. cbn [de ask ask_expr]. now rewrite D.
    - (* TEnum *)
      assert (P0 := P). assert (H0 := H). destruct x as [| | | | | | | | | |i l|]; try (destruct p; contradiction).
      destruct P as [N P]. cbn [has] in H. unfold at_index in H. rewrite pick_nth in H. destruct (nth_error vs i) as [[n s]|] eqn:E; [|contradiction].
      assert (IHs := Forall_nth _ _ _ _ IH E). apply lall_Forall in P. assert (Ps := Forall_nth _ _ _ _ P E). cbn in IHs, Ps.
      assert (SE : ser (TEnum vs) (XVar i l) = match s with
        | ShUnit => DUnitVariant n
        | ShNew t => match l with [x] => DNewtypeVariant n (ser t x) | _ => DFail end
        | ShTuple ts => DTupleVariant n (zip ser ts l)
        | ShStruct fs => DStructVariant n (zip (fun f x => match f with (n, t) => (n, ser t x) end) fs l)
        end) by (cbn [ser]; rewrite pick_nth, E; reflexivity).
      destruct p; [ | |intros id HI|intros id HI]; try (cbn [TySpec.fits] in K; unfold at_index in K; rewrite pick_nth, E in K; destruct K as [KN K]).
      + (* body *)
        destruct s as [|t|ts|fs]; [contradiction| | |].
        * destruct l as [|x [|]]; try contradiction. destruct (IHs PField x Ps H K n KN) as (ss & nd & G & O & D & _).
          destruct (field_body t x n ss nd G O) as [R EB]. exists ss. split; [|split; [exact R|]].
          -- rewrite SE. cbn [SerModel.ser_structs]. eapply gives_bind; [now apply ident_gives|]. exact G.
          -- rewrite EB. apply and_comm. now apply (variant_body vs i n (ShNew t)).
        * destruct (tuple_expr u b pf sf c nested interp F ts l) as (es & G & D & R); auto; [apply Forall_forall; intros t _; apply typed_expr|].
          exists (attr n (EArr es)). split; [|split].
          -- rewrite SE. cbn [SerModel.ser_structs]. eapply gives_bind; [now apply ident_gives|]. eapply gives_bind; [exact G|]. apply gives_ret.
          -- split; [split; [|exact I]; match goal with H : readable _ |- _ => destruct H end; split; [split|]; solve [assumption|apply K]|]. cbn. constructor; [tauto|constructor].
          -- apply and_comm. apply (variant_body vs i n (ShTuple ts)); auto. exists es. split; [reflexivity|exact D].
        * destruct Ps as [Ns Ps]. destruct (fields_body fs l IHs Ps H K Ns) as (ss & m & G & R & EB & D).
          destruct (blocks_body n [bare ss] KN) with (n := JBody [expr_of_body ss]) as [RB EBB]; [constructor; [split; [constructor|exact R]|constructor]|reflexivity|].
          exists [SBlk n [] ss]. split; [|split; [exact RB|]].
          -- rewrite SE. cbn [SerModel.ser_structs]. eapply gives_bind; [now apply ident_gives|]. eapply gives_bind; [exact G|]. apply gives_ret.
          -- cbn [map] in EBB. change (blk n (bare ss)) with (SBlk n [] ss) in EBB. rewrite EBB. cbn [expr_of_node]. rewrite EB. apply and_comm. apply (variant_body vs i n (ShStruct fs)); eauto.
      + (* field *)
        intros id HI. now apply field_simple.
      + (* block *)
        destruct s as [|t|ts|fs]; [contradiction| | |].
        * destruct l as [|x [|]]; try contradiction. destruct (IHs PField x Ps H K n KN) as (ss & nd & G & O & D & _).
          destruct (field_body t x n ss nd G O) as [R EB]. apply (one_block _ _ _ ss); [|exact R| |rewrite EB; discriminate].
          -- rewrite SE. cbn [SerModel.ser_structs]. eapply gives_bind; [now apply ident_gives|]. eapply gives_bind; [exact G|]. apply gives_ret.
          -- rewrite EB. now apply (variant_body vs i n (ShNew t)).
        * destruct K as [S K]. destruct (tuple_pairs ts l IHs Ps H K) as (L & Z & A). destruct (seq_blocks (combine ts l) n KN) as (bodies & G & W & B & EN & R); [|exact A|].
          { eapply several_length; [exact S|]. rewrite combine_length. lia. }
          destruct (blocks_body n _ KN B _ W) as [RB EBB]. apply (one_block _ _ _ (map (blk n) (map bare bodies))); [|exact RB| |rewrite EBB; discriminate].
          -- rewrite SE. cbn [SerModel.ser_structs]. eapply gives_bind; [now apply ident_gives|]. rewrite Z. eapply gives_bind; [exact G|]. apply gives_ret.
          -- rewrite EBB, EN. apply (variant_body vs i n (ShTuple ts)); auto. eexists. split; [reflexivity|]. apply de_tuple_2; [exact L|]. do 2 apply Forall2_map_r. exact R.
        * destruct Ps as [Ns Ps]. destruct (fields_body fs l IHs Ps H K Ns) as (ss & m & G & R & EB & D).
          destruct (blocks_body n [bare ss] KN) with (n := JBody [expr_of_body ss]) as [RB EBB]; [constructor; [split; [constructor|exact R]|constructor]|reflexivity|].
          apply (one_block _ _ _ [SBlk n [] ss]); [|exact RB| |].
          -- rewrite SE. cbn [SerModel.ser_structs]. eapply gives_bind; [now apply ident_gives|]. eapply gives_bind; [exact G|]. apply gives_ret.
          -- cbn [map] in EBB. change (blk n (bare ss)) with (SBlk n [] ss) in EBB. rewrite EBB. cbn [expr_of_node]. rewrite EB. apply (variant_body vs i n (ShStruct fs)); eauto.
          -- cbn [map] in EBB. change (blk n (bare ss)) with (SBlk n [] ss) in EBB. rewrite EBB. discriminate.
      + (* label *)
        destruct s as [|t|ts|fs]; [contradiction| | |].
        * destruct l as [|x [|]]; try contradiction. destruct (IHs PBlock x Ps H K id HI) as (qs & nd & G & W & B & D & _).
          exists (map (push n) qs), (JMap [(n, nd)]). split; [|split; [now apply push_weave|split; [now apply push_ok|]]].
          -- rewrite SE. cbn [SerModel.ser_structs]. rewrite <- relabel_blk. now apply gives_fmap.
          -- rewrite label_expr. split; [|split; discriminate]. now apply (variant_body vs i n (ShNew t)).
        * destruct K as [S K]. destruct (tuple_pairs ts l IHs Ps H K) as (L & Z & A). destruct (seq_blocks (combine ts l) id HI) as (bodies & G & W & B & EN & R); [|exact A|].
          { eapply several_length; [exact S|]. rewrite combine_length. lia. }
          exists (map (push n) (map bare bodies)), (JMap [(n, JBody (map expr_of_body bodies))]). split; [|split; [now apply push_weave|split; [now apply push_ok|]]].
          -- rewrite SE. cbn [SerModel.ser_structs]. rewrite Z. rewrite <- relabel_blk. eapply relabel_concatm; [|exact G]. reflexivity.
          -- rewrite label_expr. split; [|split; discriminate].
             rewrite EN. apply (variant_body vs i n (ShTuple ts)); auto. eexists. split; [reflexivity|]. apply de_tuple_2; [exact L|]. do 2 apply Forall2_map_r. exact R.
        * destruct K as [K1 K2]. destruct Ps as [Ns Ps]. destruct (fields_labels fs l id HI IHs Ps H K1 K2 Ns) as (qs & m & G & W & B & m' & EB & D).
          exists (map (push n) qs), (JMap [(n, JMap m)]). split; [|split; [now apply push_weave|split; [now apply push_ok|]]].
          -- rewrite SE. cbn [SerModel.ser_structs]. rewrite <- relabel_blk. eapply relabel_concatm; [|exact G]. intros [k y] s. unfold fmap, bind, ret. destruct (ser_structs y (KBlock id) s) as [[] ?]; try reflexivity. now rewrite relabel_relabel.
          -- rewrite label_expr. split; [|split; discriminate].
             rewrite EB. apply (variant_body vs i n (ShStruct fs)); eauto.
    - (* TBlock *)
      destruct p.
      + destruct (IH PBody x P H K) as (ss & G & R & D1 & D2). exists ss. split; [|split; [exact R|split; [exact D1|exact D2]]]. eapply marked_gives; [|exact G]. now destruct lb.
      + intros id HI. cbn [TySpec.fits] in K. apply as_blocks_field; [exact HI|]. destruct lb; [exact (IH PLabel x P H K id HI)|exact (IH PBlock x P H K id HI)].
      + intros id HI. cbn [TySpec.fits] in K. assert (A : as_blocks lb t x id) by (destruct lb; [exact (IH PLabel x P H K id HI)|exact (IH PBlock x P H K id HI)]).
        revert A. apply as_blocks_imp; auto.
        * intros qs G. eapply marked_gives; [|exact G]. now destruct lb.
        * destruct lb; [intros _ []|]. auto.
      + intros id HI. cbn [TySpec.fits] in K. assert (A := IH PLabel x P H K id HI). revert A. apply as_blocks_imp; auto; try discriminate.
        intros qs G. eapply marked_gives; [|exact G]. now destruct lb.
    - (* TValue *)
      destruct p; try (destruct x; contradiction). intros id HI. now apply field_simple.
  Qed.
End Body.

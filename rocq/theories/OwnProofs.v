(** * Proofs about the deserialization of the types of hcl-rs themselves *)
From Coq Require Import NArith ZArith Arith Bool String List Lia.
From Verif Require Import Res Str NumberModel NumberProofs PrimModel PrimProofs Ast AstInd JsonModel EvalIp SerProofs ConvFromSpec OwnModel OwnSpec.
From Verif Require MapModel.
Import ListNotations.
Open Scope list_scope.

Lemma apart_differ m : keys_apart m -> differ (okey_eqb expr_eqb) (map fst m).
Proof.
  unfold keys_apart. induction 1 as [|p m H _ IH]; cbn [map differ]; [exact I|]. split; [|exact IH].
  rewrite Forall_map. exact H.
Qed.
Lemma all_map {A B C} (f : B -> option C) (g : A -> B) (h : A -> C) l :
  Forall (fun x => f (g x) = Some (h x)) l -> all f (map g l) = Some (map h l).
Proof. induction 1 as [|x l H _ IH]; cbn; [reflexivity|]. now rewrite H, IH. Qed.
Lemma all_id {A B} (f : B -> option A) (g : A -> B) l : Forall (fun x => f (g x) = Some x) l -> all f (map g l) = Some l.
Proof. intros H. rewrite <- (map_id l) at 2. now apply all_map. Qed.

Section Own.
  Context (u : unicode) (bd : build) (interp : expr -> str).
  Notation ask := (ask interp).
  Notation de_expr := (de_expr u bd interp).

  Lemma ident_ok s : name u s -> de_ident u interp (OText s) = Some s.
  Proof. unfold name, de_ident, ident_try_new. cbn. now intros ->. Qed.
  Lemma idents_ok l : Forall (name u) l -> de_seq interp (de_ident u interp) (OSeq (map OText l)) = Some l.
  Proof. intros H. cbn. apply all_id. eapply Forall_impl; [|exact H]. exact ident_ok. Qed.
  Lemma number_ok n : num_wf n -> de_number bd interp (ONum n) = Some n.
  Proof.
    intros H. pose proof (hcl_num_wf bd n H) as E. destruct n as [z|z|f]; cbn in E |- *; [reflexivity|congruence|].
    destruct (num_from_f64 bd f) as [[n|]|]; congruence.
  Qed.
  Lemma mode_ok m : de_from_str interp hdmode_of (OText (hdmode_str m)) = Some m.
  Proof. destruct m; reflexivity. Qed.
  Lemma tpl_quoted s : de_tpl u interp (OTpl (QuotedString s)) = Some (QuotedString s).
  Proof. reflexivity. Qed.
  Lemma heredoc_ok d t m : name u d -> de_heredoc u interp (into_heredoc d t m) = Some (Heredoc d t m).
  Proof.
    intros H. unfold de_heredoc. cbn -[de_ident hdmode_str]. rewrite ident_ok by exact H. cbn -[hdmode_str].
    destruct m; reflexivity.
  Qed.
  Lemma tpl_heredoc d t m : name u d -> de_tpl u interp (OTpl (Heredoc d t m)) = Some (Heredoc d t m).
  Proof.
    intros H. change (de_heredoc u interp (OTpl (Heredoc d t m)) = Some (Heredoc d t m)).
    rewrite <- (heredoc_ok d t m H). reflexivity.
  Qed.
  Lemma func_name_ok f : Forall (name u) (fn_namespace f) -> name u (fn_name f) ->
    de_func_name u interp (into_func_name f) = Some f.
  Proof.
    destruct f as [ns n]. cbn [fn_namespace fn_name]. intros H1 H2. unfold de_func_name.
    cbn -[de_ident de_seq]. rewrite idents_ok, ident_ok by assumption. reflexivity.
  Qed.

  Section Rec.
    Context (rec : src -> option expr).
    Definition reads (e : expr) : Prop := rec (OExpr e) = Some e.
    Definition reads_key (k : okey expr) : Prop := match k with KIdent s => name u s | KExpr e => reads e end.
    Definition reads_op (o : trop expr) : Prop :=
      match o with GetAttr s => name u s | Index e => reads e | LegacyIndex n => (Z.of_N n <= u64_max)%Z | _ => True end.
    Lemma key_ok k : reads_key k -> de_key u interp rec (OKey k) = Some k.
    Proof.
      destruct k as [s|e]; cbn [reads_key]; intros H.
      - change (option_map (@KIdent expr) (de_ident u interp (OText s)) = Some (KIdent s)). now rewrite ident_ok.
      - change (option_map (@KExpr expr) (rec (OExpr e)) = Some (KExpr e)). now rewrite H.
    Qed.
    Lemma op_ok o : reads_op o -> de_trop u interp rec (OTrop o) = Some o.
    Proof.
      destruct o as [| |s|e|n]; cbn [reads_op]; intros H; try reflexivity.
      - change (option_map (@GetAttr expr) (de_ident u interp (OText s)) = Some (GetAttr s)). now rewrite ident_ok.
      - change (option_map (@Index expr) (rec (OExpr e)) = Some (Index e)). now rewrite H.
      - change (option_map (@LegacyIndex expr) (de_u64 interp (OTrop (LegacyIndex n))) = Some (LegacyIndex n)).
        cbn -[u64_max]. destruct (Z.leb_spec (Z.of_N n) u64_max); [|lia]. destruct (Z.leb_spec 0 (Z.of_N n)); [|lia].
        cbn. now rewrite N2Z.id.
    Qed.
    Lemma exprs_ok l : Forall reads l -> de_seq interp rec (OSeq (map OExpr l)) = Some l.
    Proof. intros H. cbn. now apply all_id. Qed.
    Lemma object_ok m : Forall (fun p => reads_key (fst p) /\ reads (snd p)) m -> keys_apart m ->
      object_of u interp rec (map (fun p => (OKey (fst p), OExpr (snd p))) m) = Some (EObj m).
    Proof.
      intros H A. unfold object_of. rewrite all_id.
      - cbn [option_map]. rewrite from_iter_fresh; [reflexivity|]. now apply apart_differ.
      - eapply Forall_impl; [|exact H]. intros [k e] [H1 H2]. cbn [fst snd] in *. rewrite key_ok by exact H1. cbn. now rewrite H2.
    Qed.
    Lemma traversal_ok e l : reads e -> Forall reads_op l -> de_traversal u interp rec (into_traversal e l) = Some (ETrav e l).
    Proof.
      intros H1 H2. unfold de_traversal. cbn -[de_seq]. rewrite H1. cbn -[de_seq].
      replace (de_seq interp (de_trop u interp rec) (OSeq (map OTrop l))) with (Some l); [reflexivity|].
      symmetry. cbn. apply all_id. eapply Forall_impl; [|exact H2]. exact op_ok.
    Qed.
    Lemma func_call_ok f l x : Forall (name u) (fn_namespace f) -> name u (fn_name f) -> Forall reads l ->
      de_func_call u interp rec (into_func_call f l x) = Some (ECall f l x).
    Proof.
      intros H1 H2 H3. unfold de_func_call. cbn -[de_seq de_func_name into_func_name]. rewrite func_name_ok by assumption.
      cbn -[de_seq de_func_name into_func_name]. now rewrite exprs_ok.
    Qed.
    Lemma conditional_ok c t f : reads c -> reads t -> reads f -> de_conditional interp rec (into_conditional c t f) = Some (ECond c t f).
    Proof. intros H1 H2 H3. unfold de_conditional. cbn. now rewrite H1, H2, H3. Qed.
    Lemma unary_ok o e : reads e -> de_unary interp rec (into_unary o e) = Some (EUnary o e).
    Proof. intros H. unfold de_unary. cbn -[unop_from_str unop_str]. rewrite unop_round. cbn. now rewrite H. Qed.
    Lemma binary_ok l o r : reads l -> reads r -> de_binary interp rec (into_binary l o r) = Some (EBinary l o r).
    Proof.
      intros H1 H2. unfold de_binary. cbn -[binop_from_str binop_str]. rewrite H1. cbn -[binop_from_str binop_str].
      rewrite binop_round. cbn. now rewrite H2.
    Qed.
    Lemma for_ok kv vv c k v g co : maybe (name u) kv -> name u vv -> reads c -> maybe reads k -> reads v -> maybe reads co ->
      de_for u interp rec (into_for kv vv c k v g co) = Some (EFor kv vv c k v g co).
    Proof.
      intros H1 H2 H3 H4 H5 H6.
      assert (E1 : de_option interp (de_ident u interp) (OOpt (option_map OText kv)) = Some kv).
      { destruct kv as [s|]; [|reflexivity]. cbn -[de_ident]. now rewrite ident_ok by (now apply H1). }
      assert (E2 : forall o, maybe reads o -> de_option interp rec (OOpt (option_map OExpr o)) = Some o).
      { intros [e|] H; [|reflexivity]. cbn. now rewrite (H e eq_refl). }
      unfold de_for. cbn -[de_option de_ident]. rewrite E1. cbn -[de_option de_ident]. rewrite ident_ok by exact H2.
      cbn -[de_option de_ident]. rewrite H3. cbn -[de_option]. rewrite E2 by exact H4. cbn -[de_option]. rewrite H5.
      cbn -[de_option]. now rewrite E2 by exact H6.
    Qed.
    Definition reads_parts (e : expr) : Prop :=
      match e with
      | EArr l => Forall reads l
      | EObj m => Forall (fun p => reads_key (fst p) /\ reads (snd p)) m
      | ETrav e l => reads e /\ Forall reads_op l
      | ECall _ l _ => Forall reads l
      | EParen e | EUnary _ e => reads e
      | ECond c t f => reads c /\ reads t /\ reads f
      | EBinary l _ r => reads l /\ reads r
      | EFor _ _ c k v _ co => reads c /\ maybe reads k /\ reads v /\ maybe reads co
      | _ => True
      end.
    Lemma expr_ok e : fine u e -> reads_parts e -> bind (ask (OExpr e) (QEnum (lit "$hcl::Expression"))) (visit_expr u bd interp rec) = Some e.
    Proof.
      intros F. assert (E : ask (OExpr e) (QEnum (lit "$hcl::Expression")) = Some (VisEnum (OText (variant_name e)) (AExpr e))) by reflexivity.
      rewrite E. clear E. cbn [bind].
      inversion F; subst; cbn [reads_parts]; intros R; try reflexivity.
      - change (option_map ENum (de_number bd interp (ONum n)) = Some (ENum n)). now rewrite number_ok.
      - change (option_map EArr (de_seq interp rec (OSeq (map OExpr l))) = Some (EArr l)). now rewrite exprs_ok.
      - change (object_of u interp rec (map (fun p => (OKey (fst p), OExpr (snd p))) m) = Some (EObj m)). now apply object_ok.
      - change (option_map ETpl (de_tpl u interp (OTpl (Heredoc d t m))) = Some (ETpl (Heredoc d t m))). now rewrite tpl_heredoc.
      - change (option_map EVar (de_ident u interp (OText x)) = Some (EVar x)). now rewrite ident_ok.
      - change (de_traversal u interp rec (into_traversal e0 l) = Some (ETrav e0 l)). now apply traversal_ok.
      - change (de_func_call u interp rec (into_func_call f l x) = Some (ECall f l x)). now apply func_call_ok.
      - change (option_map EParen (rec (OExpr e0)) = Some (EParen e0)). now rewrite R.
      - destruct R as (R1 & R2 & R3). now apply conditional_ok.
      - change (de_unary interp rec (into_unary o e0) = Some (EUnary o e0)). now apply unary_ok.
      - destruct R as [R1 R2]. change (de_binary interp rec (into_binary l o r) = Some (EBinary l o r)). now apply binary_ok.
      - destruct R as (R1 & R2 & R3 & R4). change (de_for u interp rec (into_for kv vv c k v g co) = Some (EFor kv vv c k v g co)).
        now apply for_ok.
    Qed.
  End Rec.

  (** ** Enough fuel *)
  Definition soon (P : nat -> Prop) : Prop := exists n, forall f, n <= f -> P f.
  Lemma soon_and (P Q : nat -> Prop) : soon P -> soon Q -> soon (fun f => P f /\ Q f).
  Proof. intros [n H] [m H2]. exists (max n m). intros f Hf. split; [apply H|apply H2]; lia. Qed.
  Lemma soon_all {A} (P : nat -> A -> Prop) l : Forall (fun x => soon (fun f => P f x)) l -> soon (fun f => Forall (P f) l).
  Proof.
    induction 1 as [|x l H _ IH]; [exists 0; constructor|]. destruct (soon_and _ _ H IH) as [n E]. exists n. intros f Hf.
    destruct (E f Hf). now constructor.
  Qed.
  Lemma soon_true (P : nat -> Prop) : (forall f, P f) -> soon P.
  Proof. exists 0. auto. Qed.
  Lemma soon_maybe {A} (P : nat -> A -> Prop) o : (forall x, o = Some x -> soon (fun f => P f x)) -> soon (fun f => maybe (P f) o).
  Proof.
    destruct o as [x|]; intros H.
    - destruct (H x eq_refl) as [n E]. exists n. intros f Hf y [= <-]. auto.
    - apply soon_true. intros f y [=].
  Qed.
  Definition ever (e : expr) : Prop := soon (fun f => reads (de_expr f) e).
  Lemma ever_step e : fine u e -> soon (fun f => reads_parts (de_expr f) e) -> ever e.
  Proof.
    intros F [n H]. exists (S n). intros [|f] Hf; [lia|]. unfold reads. cbn [OwnModel.de_expr]. apply expr_ok; [exact F|]. apply H. lia.
  Qed.
  Ltac two := repeat match goal with |- soon (fun f => _ /\ _) => apply soon_and end.
  Lemma expr_ever e : fine u e -> ever e.
  Proof.
    induction e as [|x|x|x|l IH|m IH|t|x|e ops IHe IHo|f args x IH|e IH|a d c IHa IHd IHc|o e IH|l o r IHl IHr|k v c ke ve g co IHc IHk IHv IHo] using expr_ind';
      intros F; (apply ever_step; [exact F|]); inversion F; subst; cbn [reads_parts]; try (apply soon_true; intros; exact I); two;
      try match goal with IH : fine u ?e -> ever ?e |- soon (fun f => reads (de_expr f) ?e) => apply IH; assumption end.
    - apply soon_all. rewrite Forall_forall in *. intros x Hx. now apply IH; auto.
    - apply soon_all. rewrite Forall_forall in *. intros [k x] Hx.
      match goal with H : forall p, In p m -> fine_key u _ /\ _ |- _ => destruct (H _ Hx) as [Hk Hv] end. destruct (IH _ Hx) as [IHk IHv]. cbn [fst snd] in *.
      apply soon_and; [|now apply IHv]. destruct k as [s|e]; inversion Hk; subst; cbn [reads_key].
      + now apply soon_true.
      + now apply IHk.
    - apply soon_all. rewrite Forall_forall in *. intros o Ho.
      match goal with H : forall o, In o ops -> fine_op u _ |- _ => specialize (H _ Ho) end. specialize (IHo _ Ho).
      destruct o as [| |s|i|n]; cbn [reads_op trop_all] in *; try (now apply soon_true; intros; exact I).
      + apply soon_true. intros _. match goal with H : fine_op u _ |- _ => now inversion H end.
      + apply IHo. match goal with H : fine_op u _ |- _ => now inversion H end.
      + apply soon_true. intros _. match goal with H : fine_op u _ |- _ => now inversion H end.
    - apply soon_all. rewrite Forall_forall in *. intros x' Hx. now apply IH; auto.
    - apply soon_maybe. intros x ->. apply IHk. match goal with H : maybe (fine u) (Some x) |- _ => now apply H end.
    - apply soon_maybe. intros x ->. apply IHo. match goal with H : maybe (fine u) (Some x) |- _ => now apply H end.
  Qed.

  (** ** Structures *)
  Lemma label_ok l : fine_label u l -> de_label u interp (OLabel l) = Some l.
  Proof.
    destruct l as [s|s]; cbn [fine_label]; intros H; [|reflexivity].
    change (option_map BLIdent (de_ident u interp (OText s)) = Some (BLIdent s)). now rewrite ident_ok.
  Qed.
  Lemma attribute_ok f k e : name u k -> reads (de_expr f) e -> de_attribute u bd interp f (into_attribute k e) = Some (SAttribute k e).
  Proof. intros H1 H2. unfold de_attribute. cbn -[de_ident OwnModel.de_expr]. rewrite ident_ok by exact H1. cbn -[OwnModel.de_expr]. now rewrite H2. Qed.
  Section Body.
    Context (rec : src -> option struct_).
    Definition sreads (x : struct_) : Prop := rec (OStruct x) = Some x.
    Lemma body_ok b : Forall sreads b -> de_body_of interp rec (into_body b) = Some b.
    Proof. intros H. cbn. now apply all_id. Qed.
    Lemma block_ok i ls b : name u i -> Forall (fine_label u) ls -> Forall sreads b ->
      de_block u interp rec (into_block i ls b) = Some (SBlk i ls b).
    Proof.
      intros H1 H2 H3. unfold de_block. cbn -[de_ident de_seq de_body_of into_body]. rewrite ident_ok by exact H1.
      cbn -[de_seq de_body_of into_body].
      replace (de_seq interp (de_label u interp) (OSeq (map OLabel ls))) with (Some ls).
      - cbn -[de_body_of into_body]. now rewrite body_ok.
      - symmetry. cbn. apply all_id. eapply Forall_impl; [|exact H2]. exact label_ok.
    Qed.
  End Body.
  Notation de_structure := (de_structure u bd interp).
  Lemma struct_ever x : fine_struct u x -> soon (fun f => sreads (de_structure f) x).
  Proof.
    induction x as [k e|i ls b IH] using struct_ind'; intros F; inversion F; subst.
    - destruct (expr_ever e) as [n H]; [assumption|]. exists (S n). intros [|f] Hf; [lia|]. unfold sreads. cbn [OwnModel.de_structure].
      change (de_attribute u bd interp f (into_attribute k e) = Some (SAttribute k e)). apply attribute_ok; [assumption|]. apply H. lia.
    - destruct (soon_all (fun f x => sreads (de_structure f) x) b) as [n H].
      { rewrite Forall_forall in *. intros x Hx. now apply IH; auto. }
      exists (S n). intros [|f] Hf; [lia|]. unfold sreads. cbn [OwnModel.de_structure].
      change (de_block u interp (de_structure f) (into_block i ls b) = Some (SBlk i ls b)). apply block_ok; try assumption. apply H. lia.
  Qed.
  Lemma body_soon b : fine_body u b -> soon (fun f => Forall (sreads (de_structure f)) b).
  Proof. intros H. apply soon_all. eapply Forall_impl; [|exact H]. exact struct_ever. Qed.
  Lemma body_ever b : fine_body u b -> soon (fun f => de_body u bd interp f (into_body b) = Some b).
  Proof. intros H. destruct (body_soon b H) as [n E]. exists n. intros f Hf. apply body_ok. auto. Qed.
  Lemma top_ever b : fine_body u b -> soon (fun f => de_body u bd interp f (OTop b) = Some b).
  Proof.
    intros H. destruct (body_soon b H) as [n E]. exists n. intros f Hf.
    change (de_seq interp (de_structure f) (OSeq (map OStruct b)) = Some b). cbn. apply all_id. now apply E.
  Qed.
End Own.

(** * Formatted expressions are read back: proofs *)
From Coq Require Import NArith ZArith Arith Bool String List Lia.
From Verif Require Import Res Str Dec NumberModel PrimModel PrimProofs Ast AstInd EAst EqSpec.
From Verif Require Import ConvModel ConvSpec ConvProofs PrattSpec FmtModel FmtSpec FmtLayout.
From Verif Require Import ParseBase ParseModel ParseLemmas Eat StrSpec StrProofs EatLeaf EatExpr EatColl ReadProofs EatName.
From Verif Require Import ParseSpec.
From Verif Require Import FmtReadSpec.
From Verif Require FmtQuote.
Import ListNotations.
Open Scope N_scope.

(** ** Strings *)
Definition fspecial (c : N) : bool := (c <=? 31) || (c =? 34) || (c =? 92).
Definition fhex (c : N) : str := [48; 48; hex_lower (c / 16); hex_lower (c mod 16)].
Definition fhex_ok (c : N) : bool := forallb is_hex (fhex c) && match char_from_u32 (hex_value (fhex c)) with Some d => d =? c | None => false end.
Lemma fcontrol_ok c : (c <=? 31) = true -> fhex_ok c = true.
Proof.
  rewrite N.leb_le. intros H.
  assert (E : forallb fhex_ok (map N.of_nat (seq 0 32)) = true) by reflexivity.
  rewrite forallb_forall in E. apply E. apply in_map_iff. exists (N.to_nat c). split; [apply N2Nat.id|]. apply in_seq. lia.
Qed.
Lemma fesc_seq c : fspecial c = true -> escape_seq (fesc c) c.
Proof.
  unfold fspecial, fesc. intros H.
  destruct (N.eqb_spec c 8) as [->|_]; [constructor|]. destruct (N.eqb_spec c 9) as [->|_]; [constructor|].
  destruct (N.eqb_spec c 10) as [->|_]; [constructor|]. destruct (N.eqb_spec c 12) as [->|_]; [constructor|].
  destruct (N.eqb_spec c 13) as [->|_]; [constructor|]. destruct (N.eqb_spec c 34) as [E|_]; [rewrite E; constructor|].
  destruct (N.eqb_spec c 92) as [E|_]; [rewrite E; constructor|].
  rewrite !orb_false_r in H. rewrite H. pose proof (fcontrol_ok c H) as E. unfold fhex_ok in E. apply andb_true_iff in E. destruct E as [E1 E2].
  destruct (char_from_u32 _) as [d|] eqn:E; [|discriminate]. apply N.eqb_eq in E2. subst d. apply scalar_only in E. destruct E as [E E3].
  apply (Esc_u4 (fhex c)); [reflexivity|exact E1|exact E|now rewrite E].
Qed.
Lemma fesc_plain c : fspecial c = false -> fesc c = [c] /\ (c =? 34) = false /\ (c =? 92) = false.
Proof.
  unfold fspecial, fesc. rewrite !orb_false_iff. intros [[H1 H2] H3]. rewrite H1, H2, H3.
  assert (L : forall k, k <= 31 -> (c =? k) = false) by (intros k Hk; apply N.leb_gt in H1; apply N.eqb_neq; lia).
  rewrite !L by lia. auto.
Qed.
Lemma fquoted_reads r s : escape_ok s = true -> reads (34 :: r) (fescaped s) s.
Proof.
  intros H. unfold fescaped. apply (encoded_reads fesc fspecial fesc_seq fesc_plain) with (k := length (escape_markers s)).
  - intros c [<-|[<-|[<-|[]]]]; reflexivity.
  - reflexivity.
  - now apply escape_markers_correct.
Qed.

(** ** What follows *)
Section Ctx.
Context (u : unicode) (HU : ascii_exact u).
Notation idc := (is_id_continue u).

(** What may come after an expression which is read in mode [nl] (line breaks are blanks) and, if [w]
    is set, also ends in mode [true]. *)
Definition ctx (F : str -> bool) (w nl : bool) (rest : str) : Prop :=
  ends idc rest /\ nofrac rest /\
  forall m, (nl = true -> m = true) -> (m = true -> nl = true \/ w = true) ->
    call2 (l2 (EatLeaf.skip m rest)) = false /\ F (EatLeaf.skip m rest) = true.
Definition quiet1 (r : str) : bool := flat r && nobin r.
Lemma ctx_imp (F G : str -> bool) w nl rest : (forall r, F r = true -> G r = true) -> ctx F w nl rest -> ctx G w nl rest.
Proof. intros H (A & B & C). split; [exact A|split; [exact B|]]. intros m M1 M2. destruct (C m M1 M2). auto. Qed.
Lemma ctx_weaken F w w' nl rest : (w' = true -> w = true) -> ctx F w nl rest -> ctx F w' nl rest.
Proof. intros H (A & B & C). split; [exact A|split; [exact B|]]. intros m M1 M2. apply C; [exact M1|]. intros E. destruct (M2 E); auto. Qed.
Lemma ctx_raise F w nl s rest : (s = true -> w = true) -> ctx F w nl rest -> ctx F w (nl || s) rest.
Proof.
  intros H (A & B & C). split; [exact A|split; [exact B|]]. intros m M1 M2. apply C.
  - intros ->. now apply M1.
  - intros E. destruct (M2 E) as [E'|E']; [|auto]. apply orb_true_iff in E'. destruct E'; auto.
Qed.
Lemma ctx_at F w nl s rest : (s = true -> w = true) -> ctx F w nl rest -> call2 (l2 (EatLeaf.skip (nl || s) rest)) = false /\ F (EatLeaf.skip (nl || s) rest) = true.
Proof.
  intros H (_ & _ & C). apply C.
  - intros ->. reflexivity.
  - intros E. apply orb_true_iff in E. destruct E; auto.
Qed.
Lemma stop_quiet1 r : stop r = true -> quiet1 r = true.
Proof. intros H. unfold quiet1. now rewrite (stop_flat r H), (stop_nobin r H). Qed.
Lemma quiet1_flat r : quiet1 r = true -> flat r = true.
Proof. unfold quiet1. intros H. apply andb_true_iff in H. apply H. Qed.

(** The same at every mode. *)
Lemma ctx_const F w nl rest x : ends idc rest -> nofrac rest -> (forall m, EatLeaf.skip m rest = x) -> call2 (l2 x) = false -> F x = true -> ctx F w nl rest.
Proof. intros A B C D E. split; [exact A|split; [exact B|]]. intros m _ _. rewrite C. auto. Qed.
Lemma skip_stay m c r : is_multispace c = false -> EatLeaf.skip m (c :: r) = c :: r.
Proof.
  intros H. apply skip_ends. destruct m; cbn [ends blank]; [exact H|]. unfold is_multispace in H. unfold is_space. destruct (c =? 32), (c =? 9); try discriminate; reflexivity.
Qed.
Lemma skip_space m r : EatLeaf.skip m (32 :: r) = EatLeaf.skip m r.
Proof. destruct m; apply (skip_app _ [32]); reflexivity. Qed.
(** After an expression comes a closing bracket or a comma. *)
Lemma ctx_close F w nl c r : In c [41; 93; 125; 44] -> (forall r, F (c :: r) = true) -> ctx F w nl (c :: r).
Proof.
  intros H HF. apply (ctx_const F w nl _ (c :: r)).
  - destruct H as [<-|[<-|[<-|[<-|[]]]]]; apply (not_cont u HU); reflexivity.
  - destruct H as [<-|[<-|[<-|[<-|[]]]]]; exact I.
  - intros m. apply skip_stay. destruct H as [<-|[<-|[<-|[<-|[]]]]]; reflexivity.
  - destruct H as [<-|[<-|[<-|[<-|[]]]]]; destruct r; reflexivity.
  - apply HF.
Qed.
Lemma stop_close c r : In c [41; 93; 125; 44] -> stop (c :: r) = true.
Proof. intros [<-|[<-|[<-|[<-|[]]]]]; reflexivity. Qed.
Lemma ctx_stop_close w nl c r : In c [41; 93; 125; 44] -> ctx stop w nl (c :: r).
Proof. intros H. apply ctx_close; [exact H|]. intros r'. now apply stop_close. Qed.
(** ... or a blank and then a sign. *)
Lemma ctx_sign F w nl c d r : is_multispace c = false -> call2 (l2 (c :: d :: r)) = false -> F (c :: d :: r) = true -> ctx F w nl (32 :: c :: d :: r).
Proof.
  intros H1 H2 H3. apply (ctx_const F w nl _ (c :: d :: r)); [now apply (not_cont u HU)|exact I| |exact H2|exact H3].
  intros m. rewrite skip_space. now apply skip_stay.
Qed.
Lemma ctx_dots w nl r : ctx stop w nl (46 :: 46 :: 46 :: r).
Proof.
  apply (ctx_const stop w nl _ (46 :: 46 :: 46 :: r)); [now apply (not_cont u HU)|reflexivity| |reflexivity|reflexivity].
  intros m. now apply skip_stay.
Qed.
(** A line break and a closing bracket, in mode [true]. *)
Lemma ctx_break F w c p r : multi p -> In c [41; 93; 125; 44] -> (forall r, F (c :: r) = true) -> ctx F w true (p ++ c :: r).
Proof.
  intros Hp Hc HF. assert (E : EatLeaf.skip true (p ++ c :: r) = c :: r).
  { rewrite skip_app by exact Hp. apply skip_stay. destruct Hc as [<-|[<-|[<-|[<-|[]]]]]; reflexivity. }
  destruct p as [|x p]; [now apply ctx_close|]. cbn [forallb] in Hp. apply andb_true_iff in Hp. destruct Hp as [Hx _].
  split; [|split].
  - unfold is_multispace in Hx. rewrite !orb_true_iff, !N.eqb_eq in Hx. destruct Hx as [[[->| ->]| ->]| ->]; now apply (not_cont u HU).
  - unfold is_multispace in Hx. rewrite !orb_true_iff, !N.eqb_eq in Hx. destruct Hx as [[[->| ->]| ->]| ->]; exact I.
  - intros m M1 _. rewrite (M1 eq_refl), E. split; [|apply HF]. destruct Hc as [<-|[<-|[<-|[<-|[]]]]]; destruct r; reflexivity.
Qed.
(** An operator. *)
Lemma ctx_op w nl o r : ctx flat w nl (lit " " ++ binop_str o ++ lit " " ++ r).
Proof.
  destruct (binop_clear o r false) as [_ HC]. lits.
  assert (E : exists c d t, binop_str o ++ [32] ++ r = c :: d :: t /\ is_multispace c = false /\ call2 (l2 (c :: d :: t)) = false /\ (c =? 46) = false /\ (c =? 91) = false).
  { destruct o; do 3 eexists; (split; [reflexivity|]); repeat split. }
  destruct E as (c & d & t & E & H1 & H2 & H3 & H4). change ([32] ++ binop_str o ++ [32] ++ r) with (32 :: (binop_str o ++ [32] ++ r)). rewrite E in *.
  apply ctx_sign; [exact H1|exact H2|]. unfold flat. rewrite HC, H3, H4. reflexivity.
Qed.
End Ctx.

(** ** Expressions *)
Section Rt.
Context {inp : str} (u : unicode) (b : build) (pf : str -> f64) (sf : f64 -> str) (c : cfg).
Context (HU : ascii_exact u) (HI : forallb is_space (c_indent c) = true).
Notation idc := (is_id_continue u).
Notation START := (@START inp u b pf).
Notation TERM := (@TERM inp u b pf).
Notation EXPR := (@EXPR inp u b pf).
Notation OPN := (@OPN inp u b pf).
Notation opens := (opens u).
Notation ctx := (ctx u).
Notation R := (as_read u c).
Notation show := (show u sf c).
Notation readable := (readable u b pf sf c).
Notation num_readable := (num_readable b pf sf).
Notation digit_first := (digit_first sf).
Notation soft := (soft sf).

Notation D := (raw_despan inp).
Notation DX := (x_map D leave).
(** What is read stands for [e] after the spans have been replaced by texts.  If there are no templates and
    objects in [e], it does so before. *)
Definition Q (e : expr) (x : xexpr) : Prop := (plain e = true -> of_edit sf x = R e) /\ of_edit sf (DX x) = R e.
Lemma Q_stable e : stable (Q e).
Proof. intros h x (H1 & H2). split; [now destruct x|]. rewrite <- H2. now destruct x. Qed.

(** The mode after the first operand. *)
Fixpoint sticky (e : expr) : bool :=
  match e with
  | EArr _ | ECall _ _ _ | EFor _ _ _ _ _ _ _ => true
  | ETrav e _ => sticky e
  | EBinary l _ _ => sticky l
  | _ => false
  end.
Lemma sticky_wide e : sticky e = true -> wide e = true.
Proof. induction e; cbn [sticky wide]; intros H; try discriminate; try reflexivity; auto. now rewrite IHe1. Qed.

Lemma start_num n nl rest : num_readable n -> ends idc rest -> nofrac rest -> START nl (fshow_num sf n) nl (Q (ENum n)) rest.
Proof.
  intros H He Hf k _. apply (numend_idc u HU) in He. assert (HQ : forall r, Q (ENum n) (XNum no_meta n r)) by (intros r; split; reflexivity).
  unfold fshow_num. destruct n as [z|z|f]; cbn [EncModel.show_num FmtReadSpec.num_readable] in *.
  - assert (Hne : show_N (Z.to_N z) <> []) by (destruct (show_N_head (Z.to_N z)) as (x & r & -> & _); discriminate).
    unfold show_Z. destruct (Z.ltb_spec z 0); [lia|].
    apply (start_number u b pf _ nl (show_N (Z.to_N z)) (PosInt z)); auto.
    left. rewrite digits_show, Z2N.id by lia. repeat split; auto using show_N_digits. lia.
  - assert (Hne : show_N (Z.to_N (- z)) <> []) by (destruct (show_N_head (Z.to_N (- z))) as (x & r & -> & _); discriminate).
    unfold show_Z. destruct (Z.ltb_spec z 0); [|lia].
    change (45 :: show_N (Z.to_N (- z))) with ([45] ++ [] ++ show_N (Z.to_N (- z))).
    apply (start_negative u b pf _ nl [] (show_N (Z.to_N (- z))) (PosInt (- z)) (NegInt z)); auto.
    + left. rewrite digits_show, Z2N.id by lia. repeat split; auto using show_N_digits. unfold u64_max. lia.
    + destruct H as [H'|[-> ->]]; [|reflexivity]. unfold num_neg, wrap_i64. rewrite Z.mod_small by lia. replace (- (- z + 2 ^ 63 - 2 ^ 63))%Z with z by lia.
      unfold i64_arith, i64_ok, i64_min, i64_max. destruct (Z.leb_spec (- 2 ^ 63) z); [|lia]. destruct (Z.leb_spec z (2 ^ 63 - 1)); [|lia]. reflexivity.
  - destruct H as [[H1 H2]|(t & m & E & H1 & H2 & H3)].
    + apply (start_number u b pf _ nl (sf f) (NFloat f)); auto. right. auto.
    + rewrite E. change (45 :: t) with ([45] ++ [] ++ t). apply (start_negative u b pf _ nl [] t m (NFloat f)); auto. right. auto.
Qed.
Lemma num_head n : num_readable n -> exists x t, fshow_num sf n = x :: t /\ (x = 45 \/ is_digit x = true).
Proof.
  intros H. unfold fshow_num. destruct n as [z|z|f]; cbn [EncModel.show_num FmtReadSpec.num_readable] in *.
  - unfold show_Z. destruct (Z.ltb_spec z 0); [lia|]. destruct (show_N_head (Z.to_N z)) as (x & r & -> & _ & Hd). eauto.
  - unfold show_Z. destruct (Z.ltb_spec z 0); [|lia]. eauto.
  - destruct H as [[H1 H2]|(t & m & E & H1 & H2 & H3)]; [|eauto].
    destruct (number_text_head b pf (sf f) (NFloat f)) as (x & t & -> & Hd); [now right|]. eauto.
Qed.

(** The first character. *)
Lemma variable_not_for x : variable u x -> is_ident u x = true /\ x <> lit "for".
Proof. intros (H & E). split; [exact H|]. intros ->. cbn in E. discriminate. Qed.
Definition trop_text (k : bool) (n : nat) (o : trop expr) : str :=
  match o with
  | AttrSplat => lit ".*" | FullSplat => lit "[*]" | GetAttr s => lit "." ++ s
  | Index e => lit "[" ++ show k n e ++ lit "]" | LegacyIndex i => lit "." ++ show_N i
  end.
Definition key_text (k : bool) (n : nat) (key : okey expr) : str :=
  match key with KIdent s => s | KExpr (EStr s) => str_key u c s | KExpr e => show k n e end.
Lemma show_trav k n e ops : show k n (ETrav e ops) = show k n e ++ concat (map (trop_text k n) ops).
Proof. reflexivity. Qed.
Lemma show_obj k n m : show k n (EObj m) =
  let k' := c_objects c || k in obj_text c k' n (map (fun p => (key_text k (deeper k' n) (fst p), show k (deeper k' n) (snd p))) m).
Proof. reflexivity. Qed.
Lemma ops_ends k n ops r : ends idc r -> ends idc (concat (map (trop_text k n) ops) ++ r).
Proof. intros H. destruct ops as [|[| |s|e|i] ops]; cbn [map concat trop_text]; [exact H|..]; lits; now apply (not_cont u HU). Qed.
Lemma fname_split f : exists x xs, fn_namespace f ++ [fn_name f] = x :: xs /\ fname_str f = x ++ comps xs.
Proof.
  unfold fname_str, comps. destruct f as [ns nm]. cbn [fn_namespace fn_name]. induction ns as [|y ns IH]; [exists nm, []; cbn; now rewrite app_nil_r|].
  destruct IH as (x & xs & E1 & E2). exists y, (x :: xs). cbn [app flat_map]. rewrite E1. split; [reflexivity|]. rewrite <- app_assoc, E2, <- app_assoc. reflexivity.
Qed.
Lemma show_opens e : readable e -> forall k n, opens (show k n e).
Proof.
  assert (OS : forall x r, opens x -> ends idc r -> opens (x ++ r)) by (intros; now apply opens_app).
  induction e using expr_ind'; intros HR k' n'; cbn [FmtReadSpec.readable] in HR; cbn [FmtSpec.show].
  - apply opens_word; [now apply ident_letters|discriminate].
  - destruct b0; (apply opens_word; [now apply ident_letters|discriminate]).
  - destruct (num_head n HR) as (x & t & E & Hd). rewrite E. apply (opens_other u HU). destruct Hd as [Hd|Hd]; [now rewrite Hd|]. rewrite Hd. apply orb_true_r.
  - now apply opens_other.
  - unfold arr_text, seq_text. destruct (_ || _); now apply opens_other.
  - unfold obj_text, seq_text. destruct (_ || _); now apply opens_other.
  - destruct t as [s|d s []]; now apply opens_other.
  - apply opens_word; now apply variable_not_for.
  - destruct HR as (_ & _ & HR & _). apply OS; [now apply IHe|]. rewrite <- (app_nil_r (concat _)). now apply (ops_ends k' n' ops []).
  - destruct HR as (H1 & H2 & _). destruct (fname_split f) as (x & xs & E & ->). rewrite E in *. cbn [forallb] in H1. apply andb_true_iff in H1.
    rewrite <- app_assoc. apply opens_id; [apply H1| |exact H2]. apply (comps_ends u HU). now apply (not_cont u HU).
  - now apply opens_other.
  - destruct HR as (_ & HR & _). apply OS; [now apply IHe1|]. now apply (not_cont u HU).
  - destruct o; now apply opens_other.
  - destruct HR as (_ & _ & HR & _). apply OS; [now apply IHe1|]. now apply (not_cont u HU).
  - destruct key; now apply opens_other.
Qed.
Lemma digit_first_ends e : readable e -> is_term e = true -> digit_first e = false -> forall k n, ends is_digit (show k n e).
Proof.
  assert (L : forall x r, is_ident u x = true -> ends is_digit (x ++ r)).
  { intros x r H. destruct x as [|y x]; [discriminate|]. cbn [is_ident] in H. apply andb_true_iff in H. cbn [app ends]. apply (id_start_digit u HU), H. }
  induction e using expr_ind'; intros HR HT HD k' n'; cbn [FmtReadSpec.readable] in HR; cbn [FmtSpec.show]; try discriminate.
  - reflexivity.
  - now destruct b0.
  - cbn [FmtReadSpec.digit_first] in HD. destruct (fshow_num sf n); [exact I|exact HD].
  - reflexivity.
  - unfold arr_text, seq_text. now destruct (_ || _).
  - unfold obj_text, seq_text. now destruct (_ || _).
  - now destruct t as [s|d s []].
  - rewrite <- (app_nil_r x). apply L, HR.
  - destruct HR as (HB & _ & HR & _). assert (HE : ends is_digit (show k' n' e)) by (apply IHe; [exact HR|destruct e; auto; discriminate|exact HD]).
    destruct (show_opens e HR k' n') as (x & t & E & _). rewrite E in *. exact HE.
  - destruct HR as (H1 & H2 & _). destruct (fname_split f) as (x & xs & E & ->). rewrite E in *. cbn [forallb] in H1. apply andb_true_iff in H1.
    rewrite <- app_assoc. apply L, H1.
  - reflexivity.
  - now destruct o.
  - now destruct key.
Qed.
(** A key on the next line is not read as the continuation of the value before it. *)
Definition calm (t : str) : Prop := exists x t', t = x :: t' /\ is_multispace x = false /\ existsb (N.eqb x) (lit "#/!<>+-*%&|?[=.(:") = false.
Lemma calm_ident x : is_ident u x = true -> calm x.
Proof.
  destruct x as [|y x]; [discriminate|]. cbn [is_ident]. rewrite andb_true_iff. intros [H _]. exists y, x. split; [reflexivity|].
  assert (L : forall k, k < 128 -> is_ascii_letter k || (k =? 95) = false -> (y =? k) = false) by (intros; now apply (id_start_not u HU)).
  split; [unfold is_multispace; now rewrite !L by reflexivity|]. lits. cbn [existsb]. now rewrite !L by reflexivity.
Qed.
Lemma calm_app t r : calm t -> calm (t ++ r).
Proof. intros (x & t' & -> & H). exists x, (t' ++ r). auto. Qed.
Lemma calm_stop t : calm t -> stop t = true /\ call2 (l2 t) = false /\ EatLeaf.skip true t = t.
Proof.
  intros (x & t' & -> & H1 & H2). lits_in H2. cbn [existsb] in H2. rewrite !orb_false_iff in H2. decompose [and] H2. clear H2.
  split; [|split].
  - unfold stop. rewrite (ltac:(assumption) : (x =? 61) = false), (ltac:(assumption) : (x =? 46) = false). lits. cbn [existsb].
    repeat match goal with H : (x =? _) = false |- _ => rewrite H; clear H end. reflexivity.
  - unfold call2. lits. rewrite l2_two. cbn [starts_with]. rewrite (N.eqb_sym 58 x), (ltac:(assumption) : (x =? 58) = false). cbn [andb orb].
    apply l2_head. intros d r [= -> _]. rewrite N.eqb_sym. assumption.
  - now apply skip_stay.
Qed.
Lemma soft_calm e : readable e -> soft e = true -> forall k n, calm (show k n e).
Proof.
  induction e using expr_ind'; intros HR HS k' n'; cbn [FmtReadSpec.readable] in HR; cbn [FmtSpec.show]; cbn [FmtReadSpec.soft] in HS; try discriminate.
  - apply calm_ident. now apply ident_letters.
  - destruct b0; apply calm_ident; now apply ident_letters.
  - destruct (num_head n HR) as (x & t & E & _). rewrite E in *. exists x, t. split; [reflexivity|].
    assert (L : forall d, is_digit d = false -> (x =? d) = false) by (intros d Hd; destruct (N.eqb_spec x d); [congruence|reflexivity]).
    split; [unfold is_multispace; now rewrite !L by reflexivity|]. lits. cbn [existsb]. now rewrite !L by reflexivity.
  - do 2 eexists. split; [reflexivity|]. split; reflexivity.
  - unfold obj_text, seq_text. destruct (_ || _); do 2 eexists; (split; [reflexivity|]); split; reflexivity.
  - destruct t; [|discriminate]. do 2 eexists. split; [reflexivity|]. split; reflexivity.
  - apply calm_ident, HR.
  - apply calm_app. apply IHe; [apply HR|exact HS].
  - destruct HR as (H1 & H2 & _). destruct (fname_split f) as (x & xs & E & ->). rewrite E in *. cbn [forallb] in H1. apply andb_true_iff in H1.
    rewrite <- app_assoc. apply calm_app, calm_ident, H1.
  - apply calm_app. apply IHe1; [apply HR|exact HS].
  - apply calm_app. apply IHe1; [apply HR|exact HS].
  - destruct key; [|discriminate]. do 2 eexists. split; [reflexivity|]. split; reflexivity.
Qed.

(** ** The levels of expressions *)
Definition BaseOK (e : expr) : Prop := is_base e = true -> forall k n nl rest, ends idc rest -> match e with ENum _ => nofrac rest | _ => True end ->
  after call2 nl rest -> START nl (show k n e) (nl || sticky e) (Q e) rest.
Definition TermOK (e : expr) : Prop := is_term e = true -> forall k n nl rest, ctx flat (wide e) nl rest -> TERM nl (show k n e) (nl || sticky e) (Q e) rest.
Definition operand (e : expr) : Prop := readable e /\ is_term e = true /\ TermOK e.
Definition LV (e : expr) : Prop := is_cond e = false -> operand (head (operands e)) /\ Forall (fun p => operand (snd p)) (tail (operands e)).
Definition OpnOK (e : expr) : Prop := is_cond e = false -> forall k n nl rest, ctx quiet1 (wide e) nl rest -> OPN nl (show k n e) (nl || sticky e) (Q e) rest.
Definition ExprOK (e : expr) : Prop := forall k n nl rest, ctx stop (wide e) nl rest -> EXPR nl (show k n e) (Q e) rest.
Definition P (e : expr) : Prop := readable e -> BaseOK e /\ TermOK e /\ LV e /\ OpnOK e /\ ExprOK e.

Lemma ctx_after w nl rest : ctx flat w nl rest -> after call2 nl rest.
Proof. intros H. destruct (ctx_at u flat w nl false rest (fun H => match diff_false_true H with end) H) as [H1 H2]. rewrite orb_false_r in *. split; [|exact H1]. unfold flat in H2. now apply andb_true_iff in H2. Qed.
Lemma base_term e : is_base e = true -> BaseOK e -> TermOK e.
Proof.
  intros HB H _ k n nl rest HC. apply term_plain.
  - apply H; [exact HB|apply HC| |now apply (ctx_after (wide e))]. destruct e; auto. apply HC.
  - apply Q_stable.
  - exact (proj2 (ctx_at u flat (wide e) nl (sticky e) rest (sticky_wide e) HC)).
Qed.
Lemma term_operands e : is_term e = true -> operands e = Leaf e.
Proof. destruct e; try reflexivity; discriminate. Qed.
Lemma term_lv e : readable e -> is_term e = true -> TermOK e -> LV e.
Proof. intros HR HT H _. rewrite (term_operands e HT). cbn. split; [|constructor]. repeat split; auto. Qed.
Lemma term_opn e : is_term e = true -> TermOK e -> OpnOK e.
Proof. intros HT H _ k n nl rest HC. apply opn_term. apply H; [exact HT|]. eapply ctx_imp; [|exact HC]. apply quiet1_flat. Qed.
Lemma opn_expr e : is_cond e = false -> OpnOK e -> ExprOK e.
Proof.
  intros HT H k n nl rest HC. apply (expr_opn u b pf nl _ (nl || sticky e)).
  - apply H; [exact HT|]. eapply ctx_imp; [|exact HC]. apply stop_quiet1.
  - exact (proj2 (ctx_at u stop (wide e) nl (sticky e) rest (sticky_wide e) HC)).
Qed.
Lemma base_pack e : is_base e = true -> (readable e -> BaseOK e) -> P e.
Proof.
  intros HB H HR. specialize (H HR). assert (HT : is_term e = true) by (destruct e; auto; discriminate). assert (HN : is_cond e = false) by (destruct e; auto; discriminate).
  pose proof (base_term e HB H) as H2. pose proof (term_opn e HT H2) as H3. split; [exact H|split; [exact H2|split; [now apply term_lv|split; [exact H3|now apply opn_expr]]]].
Qed.
Lemma term_pack e : is_base e = false -> is_term e = true -> (readable e -> TermOK e) -> P e.
Proof.
  intros HB HT H HR. specialize (H HR). assert (HN : is_cond e = false) by (destruct e; auto; discriminate).
  pose proof (term_opn e HT H) as H3. split; [intros E; congruence|split; [exact H|split; [now apply term_lv|split; [exact H3|now apply opn_expr]]]].
Qed.

(** ** Operations *)
Definition op_text (k : bool) (n : nat) (p : binop * expr) : str := lit " " ++ binop_str (fst p) ++ lit " " ++ show k n (snd p).
Lemma operands_text k n e : show k n e = show k n (head (operands e)) ++ flat_map (op_text k n) (tail (operands e)).
Proof.
  induction e using expr_ind'; cbn [operands head tail flat_map]; try now rewrite app_nil_r.
  cbn [FmtSpec.show]. rewrite IHe1 at 1. rewrite IHe2 at 1. rewrite flat_map_app. cbn [flat_map].
  change (op_text k n (o, head (operands e2))) with (lit " " ++ binop_str o ++ lit " " ++ show k n (head (operands e2))). now rewrite <- !app_assoc.
Qed.
Lemma operands_sticky e : sticky (head (operands e)) = sticky e.
Proof. induction e using expr_ind'; try reflexivity. exact IHe1. Qed.
Lemma operands_wide e : (wide (head (operands e)) = true -> wide e = true) /\ Forall (fun p => wide (snd p) = true -> wide e = true) (tail (operands e)).
Proof.
  induction e using expr_ind'; cbn [operands head tail]; try (split; [auto|constructor]).
  destruct IHe1 as [A1 A2], IHe2 as [B1 B2]. cbn [wide]. split; [intros H; now rewrite A1|].
  apply Forall_app. split; [eapply Forall_impl; [|exact A2]; cbn; intros p Hp H; now rewrite Hp|].
  constructor; [cbn; intros H; rewrite B1 by exact H; apply orb_true_r|]. eapply Forall_impl; [|exact B2]. cbn. intros p Hp H. rewrite Hp by exact H. apply orb_true_r.
Qed.
Fixpoint tmap {A B O} (f : A -> B) (t : optree A O) : optree B O := match t with Leaf a => Leaf (f a) | Node l o r => Node (tmap f l) o (tmap f r) end.
Lemma tmap_head {A B O} (f : A -> B) (t : optree A O) : head (tmap f t) = f (head t).
Proof. induction t; auto. Qed.
Lemma tmap_tail {A B O} (f : A -> B) (t : optree A O) : tail (tmap f t) = map (fun p => (fst p, f (snd p))) (tail t).
Proof. induction t as [|l IHl o r IHr]; [reflexivity|]. cbn [tmap tail]. rewrite map_app, IHl. cbn [map fst snd]. now rewrite IHr, tmap_head. Qed.
Lemma tmap_root {A B} (f : A -> B) n (t : optree A binop) : root_ge (fun o => o) n t -> root_ge (fun o => o) n (tmap f t).
Proof. destruct t; auto. Qed.
Lemma tmap_grouped {A B} (f : A -> B) (t : optree A binop) : grouped (fun o => o) t -> grouped (fun o => o) (tmap f t).
Proof. induction t as [|l IHl o r IHr]; [auto|]. cbn [tmap grouped]. intros (H1 & H2 & H3 & H4). auto using tmap_root. Qed.
Lemma tmap_ops {A B} (f : A -> B) (t : optree A binop) : map fst (tail (tmap f t)) = map fst (tail t).
Proof. rewrite tmap_tail, map_map. reflexivity. Qed.
Lemma fits_Q e : forall x, fits (tmap Q (operands e)) x -> Q e x.
Proof.
  induction e using expr_ind'; intros xx; try (cbn [operands tmap fits]; auto; fail).
  cbn [operands tmap fits]. intros (m & xl & m' & xr & -> & F1 & F2). apply IHe1 in F1. apply IHe2 in F2. destruct F1 as (A1 & A2), F2 as (B1 & B2).
  split; cbn; [intros HP; andb; now rewrite A1, B1|now rewrite A2, B2].
Qed.
Lemma ops_ctx k n w fl rest l : ctx quiet1 w fl rest -> ctx flat w fl (flat_map (op_text k n) l ++ rest).
Proof.
  intros H. destruct l as [|[o e] l]; cbn [flat_map app]; [eapply ctx_imp; [|exact H]; apply quiet1_flat|].
  unfold op_text at 1. cbn [fst snd]. replace (((lit " " ++ binop_str o ++ lit " " ++ show k n e) ++ flat_map (op_text k n) l) ++ rest) with
    (lit " " ++ binop_str o ++ lit " " ++ (show k n e ++ flat_map (op_text k n) l ++ rest)) by (now rewrite <- !app_assoc). now apply ctx_op.
Qed.
Lemma ops_ok k n w fl rest l : Forall (fun p => operand (snd p)) l -> Forall (fun p => wide (snd p) = true -> w = true) l ->
  ctx quiet1 w fl rest -> @OPS inp u b pf fl rest (flat_map (op_text k n) l) (map (fun p => (fst p, Q (snd p))) l).
Proof.
  intros HO HW HC. induction l as [|[o e] l IH]; cbn [flat_map map fst snd].
  - constructor. destruct (ctx_at u quiet1 w fl false rest (fun H => match diff_false_true H with end) HC) as [_ H2]. rewrite orb_false_r in H2. unfold quiet1 in H2. now apply andb_true_iff in H2.
  - inversion HO as [|? ? H1 H2]; subst. inversion HW as [|? ? W1 W2]; subst. cbn [snd] in *. unfold op_text at 1. cbn [fst snd]. destruct H1 as (R1 & T1 & O1).
    apply (OPS_cons u b pf fl rest o (show k n e) (fl || sticky e)).
    + apply O1; [exact T1|]. exact (ctx_weaken u flat w (wide e) fl _ W1 (ops_ctx k n w fl rest l HC)).
    + now apply show_opens.
    + now apply IH.
Qed.
Lemma binary_opn l o r : readable (EBinary l o r) -> LV (EBinary l o r) -> OpnOK (EBinary l o r).
Proof.
  set (e := EBinary l o r). intros HR HL _ k n nl rest HC. destruct (HL eq_refl) as [H1 H2]. destruct (operands_wide e) as [W1 W2].
  rewrite (operands_text k n e). rewrite <- (operands_sticky e).
  destruct HR as (_ & _ & _ & _ & HG & HN). change (Node (operands l) o (operands r)) with (operands e) in HG, HN.
  assert (HT : exists o1 e1 t1, tail (operands e) = (o1, e1) :: t1).
  { cbn [e operands tail]. destruct (tail (operands l)) as [|[o1 e1] t1]; cbn [app]; eauto. }
  destruct HT as (o1 & e1 & t1 & ET). rewrite ET in *. cbn [flat_map]. unfold op_text at 1. cbn [fst snd].
  inversion H2 as [|? ? (R1 & T1 & O1) H2']; subst. inversion W2 as [|? ? W3 W4]; subst. cbn [snd] in *. destruct H1 as (R0 & T0 & O0).
  eapply opn_imp; [|apply fits_Q].
  assert (HC' : ctx quiet1 (wide e) (nl || sticky (head (operands e))) rest).
  { apply ctx_raise; [|exact HC]. rewrite operands_sticky. apply sticky_wide. }
  apply (opn_binary u b pf HU nl _ _ (tmap Q (operands e)) o1 (show k n e1) (nl || sticky (head (operands e)) || sticky e1) (Q e1) (flat_map (op_text k n) t1) (map (fun p => (fst p, Q (snd p))) t1)).
  - rewrite tmap_head. apply O0; [exact T0|].
    replace ((lit " " ++ binop_str o1 ++ lit " " ++ show k n e1) ++ flat_map (op_text k n) t1 ++ rest) with (lit " " ++ binop_str o1 ++ lit " " ++ (show k n e1 ++ flat_map (op_text k n) t1 ++ rest)) by (now rewrite <- !app_assoc). now apply ctx_op.
  - apply O1; [exact T1|]. exact (ctx_weaken u flat (wide e) (wide e1) _ _ W3 (ops_ctx k n (wide e) _ rest t1 HC')).
  - now apply show_opens.
  - now apply (ops_ok k n (wide e)).
  - rewrite tmap_tail, ET. reflexivity.
  - now apply tmap_grouped.
  - rewrite tmap_ops, ET. exact HN.
  - now apply show_opens.
Qed.
Lemma P_binary l o r : P l -> P r -> P (EBinary l o r).
Proof.
  intros IHl IHr HR. pose proof HR as (N1 & N2 & R1 & R2 & _). destruct (IHl R1) as (_ & _ & L1 & _), (IHr R2) as (_ & _ & L2 & _).
  assert (HL : LV (EBinary l o r)).
  { intros _. destruct (L1 N1) as [A1 A2], (L2 N2) as [B1 B2]. cbn [operands head tail]. split; [exact A1|]. apply Forall_app. split; [exact A2|]. now constructor. }
  pose proof (binary_opn l o r HR HL) as HO. split; [discriminate|split; [discriminate|split; [exact HL|split; [exact HO|now apply opn_expr]]]].
Qed.

(** ** Conditionals *)
Lemma P_cond a d f : P a -> P d -> P f -> P (ECond a d f).
Proof.
  intros IHa IHd IHf HR. pose proof HR as (N1 & R1 & R2 & R3). split; [discriminate|split; [discriminate|split; [discriminate|split; [discriminate|]]]].
  intros k n nl rest HC. destruct (IHa R1) as (_ & _ & _ & HA & _), (IHd R2) as (_ & _ & _ & _ & HD), (IHf R3) as (_ & _ & _ & _ & HF).
  cbn [FmtSpec.show]. cbn [wide] in HC.
  apply (expr_cond u b pf HU nl _ (nl || sticky a) (Q a) _ (Q d) _ (Q f)).
  - apply HA; [exact N1|]. lits. cbn [app]. apply (ctx_sign u HU); reflexivity.
  - apply HD. lits. cbn [app]. apply (ctx_sign u HU); reflexivity.
  - apply HF. eapply ctx_weaken; [|apply ctx_raise; [|exact HC]].
    + intros ->. apply orb_true_r.
    + intros S. now rewrite (sticky_wide a S).
  - now apply show_opens.
  - now apply show_opens.
  - now apply show_opens.
  - apply Q_stable.
  - apply Q_stable.
  - apply Q_stable.
  - intros m xa xd xf (A1 & A2) (B1 & B2) (C1 & C2). split; cbn; [intros HP; andb; now rewrite A1, B1, C1|now rewrite A2, B2, C2].
Qed.

(** ** Terms *)
Lemma P_word x e : (readable e -> is_ident u x = true) -> (forall k n, show k n e = x) -> (readable e -> Q e (keyword x)) -> is_base e = true -> sticky e = false -> P e.
Proof.
  intros H1 H2 H3 HB HS. apply base_pack; [exact HB|]. intros HR _ k n nl rest He _ Ha. rewrite H2, HS, orb_false_r. intros j _. apply (start_ident u b pf HU); auto.
Qed.
Lemma P_string s : P (EStr s).
Proof.
  apply base_pack; [reflexivity|]. intros HR _ k n nl rest _ _ _. cbn [FmtSpec.show sticky]. rewrite orb_false_r. intros j _. apply (start_string u b pf _ nl s).
  - now apply fquoted_reads.
  - split; reflexivity.
Qed.
Lemma P_num x : P (ENum x).
Proof. apply base_pack; [reflexivity|]. intros HR _ k n nl rest He Hf _. cbn [FmtSpec.show sticky]. rewrite orb_false_r. now apply start_num. Qed.
Lemma P_paren e : P e -> P (EParen e).
Proof.
  intros IH. apply base_pack; [reflexivity|]. intros HR _ k n nl rest _ _ _. cbn [FmtReadSpec.readable] in HR. destruct (IH HR) as (_ & _ & _ & _ & HE).
  cbn [FmtSpec.show sticky]. rewrite orb_false_r. apply (start_paren u b pf HU nl (show k n e) (Q e)).
  - now apply show_opens.
  - apply Q_stable.
  - apply HE. apply (ctx_stop_close u HU). now left.
  - intros m x (A1 & A2). split; cbn; [intros HP; now rewrite A1|now rewrite A2].
Qed.
Lemma P_unary o e : P e -> P (EUnary o e).
Proof.
  intros IH. apply term_pack; [reflexivity|reflexivity|]. intros (HT & HR & HD) _ k n nl rest HC. destruct (IH HR) as (_ & HE & _).
  cbn [FmtSpec.show sticky]. rewrite orb_false_r. cbn [wide] in HC. apply term_plain.
  - apply (start_unary u b pf HU nl o (show k n e) (nl || sticky e) (Q e)).
    + now apply show_opens.
    + apply Q_stable.
    + now apply HE.
    + intros E. apply digit_first_ends; auto.
    + intros m s x (A1 & A2). split; cbn; [intros HP; now rewrite A1|now rewrite A2].
  - apply Q_stable.
  - destruct (ctx_at u flat (wide e) nl false rest (fun H => match diff_false_true H with end) HC) as [_ H2]. now rewrite orb_false_r in H2.
Qed.

(** ** Sequences *)
Lemma space_multi w : forallb is_space w = true -> multi w.
Proof. rewrite !forallb_forall. intros H x Hx. specialize (H x Hx). unfold is_space, is_multispace in *. destruct (x =? 32), (x =? 9); auto; discriminate. Qed.
Lemma pad_space n : forallb is_space (pad c n) = true.
Proof. unfold pad. induction n as [|n IH]; [reflexivity|]. cbn [repeat concat]. now rewrite forallb_app, HI, IH. Qed.
Lemma pad_multi n : multi (pad c n).
Proof. apply space_multi, pad_space. Qed.
Lemma newline_multi n : multi (newline c n).
Proof. unfold newline. cbn [app forallb]. now rewrite pad_multi. Qed.

Definition good (e : expr) : Prop := readable e /\ ExprOK e.
Lemma P_good l : Forall P l -> lall readable l -> Forall good l.
Proof. induction 1 as [|e l H _ IH]; [constructor|]. intros [H1 H2]. constructor; [|now apply IH]. split; [exact H1|]. now apply H. Qed.
Lemma elems_ok k d sepw last rest : multi sepw -> multi last -> (forall w, ctx stop w true (last ++ rest)) -> forall es e, Forall good (e :: es) ->
  exists w' t2, flat_map (fun t => ([44] ++ sepw) ++ t) (map (show k d) es) ++ last = w' ++ t2 /\ multi w' /\
    EXPR true (show k d e) (Q e) (w' ++ t2 ++ rest) /\ @MORE inp u b pf rest t2 (map Q es) /\ ends idc (w' ++ t2 ++ rest).
Proof.
  intros Hs Hl Hr. induction es as [|e' es IH]; intros e HG; inversion HG as [|? ? (R1 & E1) HG']; subst.
  - exists last, []. cbn [map flat_map app]. rewrite app_nil_r. split; [reflexivity|]. split; [exact Hl|]. split; [now apply E1|]. split; [constructor|]. apply (Hr false).
  - destruct (IH e' HG') as (w' & t2 & ET & Hw & HE & HM & _). inversion HG' as [|? ? (R2 & E2) _]; subst.
    exists [], ([44] ++ (sepw ++ show k d e' ++ w') ++ t2). split.
    + cbn [map flat_map]. rewrite <- !app_assoc. rewrite ET. reflexivity.
    + split; [reflexivity|]. split; [apply E1; apply (ctx_stop_close u HU); cbn [In]; auto|]. split.
      * cbn [map]. constructor; auto using Q_stable. now apply show_opens.
      * now apply (not_cont u HU).
Qed.
Lemma alls_Q es xs : alls (map Q es) xs -> (forallb plain es = true -> map (of_edit sf) xs = map R es) /\ map (of_edit sf) (map DX xs) = map R es.
Proof.
  unfold alls. revert xs. induction es as [|e es IH]; intros xs H; cbn [map] in H; inversion H as [|? x ? xs' HA HX]; subst; [auto|]. destruct HA as (A1 & A2).
  destruct (IH xs' HX) as (B1 & B2). cbn [map forallb]. split; [intros HP; andb; now rewrite A1, B1|now rewrite A2, B2].
Qed.
Lemma P_arr l : Forall P l -> P (EArr l).
Proof.
  intros IH. apply base_pack; [reflexivity|]. intros HR _ k n nl rest _ _ _. cbn [FmtReadSpec.readable] in HR. pose proof (P_good l IH HR) as HG. clear IH HR.
  cbn [FmtSpec.show sticky]. rewrite orb_true_r. set (k' := c_arrays c || k). set (d := deeper k' n).
  assert (ET : exists first sepw last, multi first /\ multi sepw /\ multi last /\ arr_text c k' n (map (show k d) l) = seq_text (lit "[") first ([44] ++ sepw) last (lit "]") (map (show k d) l)).
  { unfold arr_text. destruct k'; [exists [], [32], []|exists (newline c (S n)), (newline c (S n)), (newline c n)]; repeat split; auto using newline_multi. }
  destruct ET as (first & sepw & last & M1 & M2 & M3 & ->). unfold seq_text. destruct l as [|e l].
  - apply (start_array_nil u b pf). intros m t. split; reflexivity.
  - cbn [map]. assert (HC : forall w, ctx stop w true (last ++ [93] ++ rest)).
    { intros w. apply (ctx_break u HU); [exact M3|cbn; auto|]. intros. reflexivity. }
    destruct (elems_ok k d sepw last ([93] ++ rest) M2 M3 HC l e HG) as (w' & t2 & ET & Hw & HE & HM & Hi).
    replace (lit "[" ++ (first ++ show k d e ++ flat_map (fun t => ([44] ++ sepw) ++ t) (map (show k d) l) ++ last) ++ lit "]") with ([91] ++ ((first ++ show k d e ++ w') ++ t2) ++ [93]).
    + apply (start_array u b pf HU nl first _ w' (Q e) t2 (map Q l)); auto using Q_stable.
      * inversion HG as [|? ? (R1 & _) _]; subst. now apply show_opens.
      * intros m xs tr HA. destruct (alls_Q (e :: l) xs HA) as (A1 & A2). split; [intros HP; cbn [of_edit as_read]; now rewrite (A1 HP)|]. cbn [x_map of_edit as_read]. now rewrite A2.
    + lits. rewrite ET, <- !app_assoc. reflexivity.
Qed.

(** ** Calls *)
Lemma P_call f args ex : Forall P args -> P (ECall f args ex).
Proof.
  intros IH. apply base_pack; [reflexivity|]. intros (HN & HF & HR & HX) _ k n nl rest _ _ _. pose proof (P_good args IH HR) as HG. clear IH HR.
  cbn [FmtSpec.show sticky]. rewrite orb_true_r. destruct (fname_split f) as (x & xs & E & ->). rewrite E in HN. cbn [forallb] in HN. apply andb_true_iff in HN. destruct HN as [N1 N2].
  set (dots := if ex then lit "..." else []).
  assert (HQ : forall m ns name m' ys tr, map i_name (ns ++ [name]) = x :: xs -> alls (map Q args) ys -> Q (ECall f args ex) (XCall m ns name m' ys ex false tr)).
  { intros m ns name m' ys tr EN HA. rewrite <- E, map_app in EN. apply app_inj_tail in EN. destruct EN as [E1 E2]. cbn [map] in E2.
    destruct (alls_Q args ys HA) as (A1 & A2). split; [intros HP|]; cbn [x_map of_edit as_read]; [rewrite (A1 HP)|rewrite A2, map_map].
    - destruct f; cbn in *. now rewrite E1, E2.
    - change (fun x0 : did => i_name (did_map D x0)) with i_name. destruct f; cbn in *. now rewrite E1, E2. }
  destruct args as [|e args].
  - destruct ex; [now destruct (HX eq_refl)|]. cbn [map args_text app]. rewrite <- app_assoc.
    apply (start_call u b pf HU nl x xs [] [] false); auto. constructor.
  - cbn [map args_text]. assert (HC : forall w, ctx stop w true ([] ++ dots ++ [41] ++ rest)).
    { intros w. unfold dots. destruct ex; [apply (ctx_dots u HU)|]. apply (ctx_stop_close u HU). now left. }
    destruct (elems_ok true n [32] [] (dots ++ [41] ++ rest) eq_refl eq_refl HC args e HG) as (w' & t2 & ET & Hw & HE & HM & Hi).
    replace ((x ++ comps xs) ++ lit "(" ++ (show true n e ++ flat_map (fun t => lit ", " ++ t) (map (show true n) args)) ++ (if ex then lit "...)" else lit ")"))
      with (x ++ comps xs ++ [40] ++ (([] ++ show true n e ++ w') ++ t2 ++ dots) ++ [41]).
    + rewrite (app_assoc _ t2 dots). apply (start_call u b pf HU nl x xs _ (map Q (e :: args)) ex); auto. cbn [map].
      apply (ARGS_cons u b pf rest [] (show true n e) w' (Q e) t2 (map Q args) ex); auto using Q_stable. inversion HG as [|? ? (R1 & _) _]; subst. now apply show_opens.
    + rewrite app_nil_r in ET. change (fun t => lit ", " ++ t) with (fun t : list N => ([44] ++ [32]) ++ t). rewrite ET. unfold dots. lits. destruct ex; rewrite <- !app_assoc; reflexivity.
Qed.

(** ** Traversals *)
Definition Ro (o : trop expr) : trop expr := match o with Index e => Index (R e) | o => o end.
Definition plain_op (o : trop expr) : bool := match o with Index e => plain e | _ => true end.
Definition Qo (o : trop expr) (x : xop) : Prop := (plain_op o = true -> of_op sf x = Ro o) /\ of_op sf (op_map D leave x) = Ro o.
Definition Qs (ops : list (trop expr)) (l : list xtrop) : Prop := (forallb plain_op ops = true -> map (of_trop sf) l = map Ro ops) /\ map (of_trop sf) (map (trop_map D leave) l) = map Ro ops.
Definition op_ok (o : trop expr) : Prop :=
  match o with AttrSplat | FullSplat => True | GetAttr x => is_ident u x = true | Index e => good e | LegacyIndex i => (Z.of_N i <= u64_max)%Z end.
Lemma op_reads k n o rest : op_ok o -> ends idc rest -> op_head (trop_text k n o) /\ @OP inp u b pf (trop_text k n o) (Qo o) rest.
Proof.
  intros H He. destruct o as [| |s|e|i]; cbn [op_ok trop_text] in *; lits.
  - split; [do 2 eexists; split; [reflexivity|]; split; [discriminate|]; left; auto|]. apply op_splat. intros m. split; reflexivity.
  - split; [do 2 eexists; split; [reflexivity|]; split; [discriminate|]; right; auto|]. apply op_full. intros m. split; reflexivity.
  - split.
    + destruct s as [|x s]; [discriminate|]. do 2 eexists. split; [reflexivity|]. split; [discriminate|]. left. split; [reflexivity|]. cbn [is_ident] in H. apply andb_true_iff in H.
      cbn [starts_with]. rewrite N.eqb_sym, (id_start_not u HU x 46) by (try reflexivity; apply H). reflexivity.
    + apply (op_attr u b pf HU); auto. intros m. split; reflexivity.
  - split; [do 2 eexists; split; [reflexivity|]; split; [|right; auto]; destruct (show k n e); discriminate|]. destruct H as [HR HE].
    apply (op_index u b pf HU (show k n e) (Q e)); auto using show_opens, Q_stable.
    + apply HE. apply (ctx_stop_close u HU). cbn; auto.
    + intros x (A1 & A2). split; [intros HP; change (Index (of_edit sf x) = Index (R e)); now rewrite A1|]. change (Index (of_edit sf (DX x)) = Index (R e)). now rewrite A2.
  - split.
    + destruct (show_N_head i) as (x & t & -> & _ & Hd). do 2 eexists. split; [reflexivity|]. split; [discriminate|]. left. split; [reflexivity|]. cbn [starts_with].
      destruct (N.eqb_spec 46 x) as [E|_]; [rewrite <- E in Hd; discriminate|reflexivity].
    + apply op_legacy; auto; [now apply (ends_continue_digit u HU)|]. intros m. split; reflexivity.
Qed.
Lemma trav_reads k n fl rest ops : Forall op_ok ops -> ends idc rest -> level fl rest -> @TRAV inp u b pf fl rest (concat (map (trop_text k n) ops)) (Qs ops).
Proof.
  intros H He HL. induction H as [|o ops Ho H IH]; cbn [map concat].
  - apply TRAV_nil; [|exact HL]. split; reflexivity.
  - destruct (op_reads k n o (concat (map (trop_text k n) ops) ++ rest) Ho) as [H1 H2]; [now apply ops_ends|].
    apply (TRAV_cons u b pf fl rest _ _ (Qo o) (Qs ops)); auto.
    intros m x l (A1 & A2) (B1 & B2). split; [cbn [forallb]; intros HP; andb; change (of_op sf x :: map (of_trop sf) l = Ro o :: map Ro ops); now rewrite A1, B1|].
    change (of_op sf (op_map D leave x) :: map (of_trop sf) (map (trop_map D leave) l) = Ro o :: map Ro ops). now rewrite A2, B2.
Qed.
Lemma P_trav e ops : P e -> Forall (trop_all P) ops -> P (ETrav e ops).
Proof.
  intros IH IHo. apply term_pack; [reflexivity|reflexivity|]. intros (HB & HN & HR & HL & HO) _ k n nl rest HC. destruct (IH HR) as (HBase & _).
  assert (HG : Forall op_ok ops).
  { clear HN HL HC. induction IHo as [|o ops Ho _ IH']; [constructor|]. destruct HO as [O1 O2]. constructor; [|now apply IH'].
    destruct o; cbn [op_ok trop_all] in *; auto. split; [exact O1|]. now apply Ho. }
  rewrite show_trav. destruct ops as [|o ops]; [congruence|]. inversion HG as [|? ? G1 G2]; subst. cbn [map concat sticky wide] in *.
  pose proof HC as (He & _ & _).
  destruct (op_reads k n o (concat (map (trop_text k n) ops) ++ rest) G1) as [H1 H2]; [now apply ops_ends|].
  apply (term_trav u b pf nl (show k n e) (nl || sticky e) (Q e) (trop_text k n o) _ (Qo o) (Qs ops)).
  - apply HBase; [exact HB|rewrite app_assoc; exact (ops_ends k n (o :: ops) rest He)| |].
    + destruct e; auto. destruct o as [| |x|i|j]; cbn [trop_text]; lits; cbn [app nofrac]; try exact I; try reflexivity; try contradiction.
      cbn [op_ok] in G1. destruct x as [|y x]; [discriminate|]. cbn [is_ident] in G1. apply andb_true_iff in G1. cbn [app]. apply (id_start_digit u HU), G1.
    + destruct (op_head_clear (trop_text k n o) (concat (map (trop_text k n) ops) ++ rest) H1 nl) as (C1 & C2 & _). split; rewrite skip_ends by exact C1; [exact C2|].
      destruct H1 as (x & t & -> & _ & [[-> _]| ->]); unfold call2; lits; cbn [app]; rewrite l2_two; cbn [starts_with N.eqb andb orb]; apply l2_head; intros d r [= <- _]; reflexivity.
  - apply Q_stable.
  - exact H1.
  - exact H2.
  - apply trav_reads; auto. exact (proj2 (ctx_at u flat (wide e) nl (sticky e) rest (sticky_wide e) HC)).
  - intros m x m' y l (A1 & A2) (B1 & B2) (C1 & C2). split.
    + change (plain e && (plain_op o && forallb plain_op ops) = true -> ETrav (of_edit sf x) (of_op sf y :: map (of_trop sf) l) = ETrav (R e) (Ro o :: map Ro ops)). intros HP. andb. now rewrite A1, B1, C1.
    + change (ETrav (of_edit sf (DX x)) (of_op sf (op_map D leave y) :: map (of_trop sf) (map (trop_map D leave) l)) = ETrav (R e) (Ro o :: map Ro ops)). now rewrite A2, B2, C2.
Qed.

(** ** For expressions *)
Definition Qc (f : option expr) : xexpr -> Prop := match f with Some e => Q e | None => fun _ => True end.
Lemma cond_ok k n cond (cl : N) rest : oallp readable cond -> opt_all P cond -> In cl [41; 93; 125; 44] -> 
  @COND inp u b pf (option_map (show k n) cond) (Qc cond) ([cl] ++ rest).
Proof.
  intros HR IH Hc. destruct cond as [e|]; cbn [option_map COND Qc oallp opt_all] in *; [|exact I]. split; [now apply show_opens|]. split; [apply Q_stable|].
  apply IH; [exact HR|]. now apply (ctx_stop_close u HU).
Qed.
Lemma cond_read k n cond f : cond_fits (option_map (show k n) cond) (Qc cond) f ->
  (match cond with Some k => plain k | None => true end = true -> option_map (of_cond sf) f = option_map R cond) /\ option_map (of_cond sf) (option_map (cond_map D leave) f) = option_map R cond.
Proof.
  destruct cond as [e|], f as [[m x]|]; cbn [option_map cond_fits Qc]; try (intros []; fail); [|split; reflexivity].
  intros (A1 & A2). split; [intros HP; change (Some (of_edit sf x) = Some (R e)); now rewrite A1|]. change (Some (of_edit sf (DX x)) = Some (R e)). now rewrite A2.
Qed.
Lemma kname_map kv : kname kv = option_map i_name kv.
Proof. now destruct kv. Qed.
Lemma of_for m im kv vv co key v g f : of_edit sf (XFor m im kv vv co key v g f) =
  EFor (option_map i_name kv) (i_name vv) (of_edit sf co) (option_map (of_edit sf) key) (of_edit sf v) g (option_map (of_cond sf) f).
Proof. reflexivity. Qed.
Lemma of_for_map h g' m im kv vv co key v g f : of_edit sf (x_map h g' (XFor m im kv vv co key v g f)) =
  EFor (option_map i_name (option_map (did_map h) kv)) (i_name vv) (of_edit sf (x_map h g' co)) (option_map (of_edit sf) (option_map (x_map h g') key))
       (of_edit sf (x_map h g' v)) g (option_map (of_cond sf) (option_map (cond_map h g') f)).
Proof. reflexivity. Qed.
Lemma P_for kv vv coll key val g cond : P coll -> opt_all P key -> P val -> opt_all P cond -> P (EFor kv vv coll key val g cond).
Proof.
  intros IHc IHk IHv IHf. apply base_pack; [reflexivity|]. intros (HK & HV & Rc & Rk & Rv & Rf & HG) _ k n nl rest _ _ _.
  cbn [FmtSpec.show sticky]. rewrite orb_true_r.
  destruct (IHc Rc) as (_ & _ & _ & _ & Ec), (IHv Rv) as (_ & _ & _ & _ & Ev).
  assert (HK' : opt_ident u kv = true) by (destruct kv; [exact HK|reflexivity]).
  set (tf := option_map (show k n) cond).
  assert (C2 : forall w nl' cl, In cl [41; 93; 125; 44] -> ctx stop w nl' (cond_sep tf ++ cond_text tf ++ [cl] ++ rest)).
  { intros w nl' cl Hc. unfold tf. destruct cond as [f|]; cbn [option_map cond_sep cond_text app]; [|now apply (ctx_stop_close u HU)].
    lits. cbn [app]. apply (ctx_sign u HU); reflexivity. }
  destruct key as [key|]; cbn [andb option_map opt_all oallp] in *.
  - destruct (IHk Rk) as (_ & _ & _ & _ & Ek).
    replace (lit "{" ++ lit "for " ++ match kv with Some x => x ++ lit ", " | None => [] end ++ vv ++ lit " in " ++ show k n coll ++ lit " : " ++
             (show k n key ++ lit " => ") ++ show k n val ++ (if g then lit "..." else []) ++ match cond with Some e => lit " if " ++ show k n e | None => [] end ++ lit "}")
      with ([123] ++ (for_text kv vv (show k n coll) ++ [32] ++ show k n key ++ lit " => " ++ show k n val ++ group_text g ++ cond_sep tf ++ cond_text tf) ++ [125]).
    + apply (start_for_object u b pf HU nl kv vv _ (Q coll) _ (Q key) _ (Q val) g tf (Qc cond)); auto using show_opens, Q_stable.
      * apply Ec. lits. cbn [app]. apply (ctx_sign u HU); reflexivity.
      * apply Ek. lits. cbn [app]. apply (ctx_sign u HU); reflexivity.
      * apply Ev. destruct g; cbn [group_text app]; [apply (ctx_dots u HU)|]. apply C2. cbn; auto.
      * apply cond_ok; auto. cbn; auto.
      * intros m im kv' vv' xc xk xv f E1 E2 (A1 & A2) (B1 & B2) (D1 & D2) HF. destruct (cond_read k n cond f HF) as (F1 & F2). rewrite kname_map in E1.
        split; [cbn [plain]; intros HP; andb; rewrite of_for; cbn [as_read option_map]; now rewrite A1, B1, D1, F1, E1, E2|]. rewrite of_for_map. cbn [as_read option_map]. rewrite A2, B2, D2, F2.
        assert (EK : option_map i_name (option_map (did_map D) kv') = kv) by (rewrite <- E1; now destruct kv'). rewrite EK. now rewrite E2.
    + unfold for_text, opt_key, group_text, tf. lits. destruct kv, g, cond; cbn [option_map cond_sep cond_text app]; lits; repeat (rewrite <- ?app_assoc; cbn [app]); reflexivity.
  - specialize (HG eq_refl). subst g.
    replace (lit "[" ++ lit "for " ++ match kv with Some x => x ++ lit ", " | None => [] end ++ vv ++ lit " in " ++ show k n coll ++ lit " : " ++
             [] ++ show k n val ++ [] ++ match cond with Some e => lit " if " ++ show k n e | None => [] end ++ lit "]")
      with ([91] ++ (for_text kv vv (show k n coll) ++ [32] ++ show k n val ++ cond_sep tf ++ cond_text tf) ++ [93]).
    + apply (start_for_list u b pf HU nl kv vv _ (Q coll) _ (Q val) tf (Qc cond)); auto using show_opens, Q_stable.
      * apply Ec. lits. cbn [app]. apply (ctx_sign u HU); reflexivity.
      * apply Ev. apply C2. cbn; auto.
      * apply cond_ok; auto. cbn; auto.
      * intros m im kv' vv' xc xv f E1 E2 (A1 & A2) (D1 & D2) HF. destruct (cond_read k n cond f HF) as (F1 & F2). rewrite kname_map in E1.
        split; [cbn [plain]; intros HP; andb; rewrite of_for; cbn [as_read option_map]; now rewrite A1, D1, F1, E1, E2|]. rewrite of_for_map. cbn [as_read option_map]. rewrite A2, D2, F2.
        assert (EK : option_map i_name (option_map (did_map D) kv') = kv) by (rewrite <- E1; now destruct kv'). rewrite EK. now rewrite E2.
    + unfold for_text, opt_key, group_text, tf. lits. destruct kv, cond; cbn [option_map cond_sep cond_text app]; lits; repeat (rewrite <- ?app_assoc; cbn [app]); reflexivity.
Qed.

(** ** Objects *)
Definition key_readable (key : okey expr) : Prop :=
  match key with
  | KIdent x => variable u x
  | KExpr (EVar _) => False
  | KExpr (EStr s) => if c_ident_keys c && is_ident u s then reserved s = false else escape_ok s = true
  | KExpr e => plain e = true /\ readable e
  end.
Notation Rk := (read_key u c).
Definition Qk (key : okey expr) (x : xkey) : Prop := of_key sf x = Rk key /\ of_key sf (key_map D leave x) = Rk key.
Lemma Qk_stable key : key_stable (Qk key).
Proof. intros h x (H1 & H2). split; [destruct x as [i|e]; [exact H1|]|destruct x as [i|e]; [exact H2|]].
  - rewrite <- H1. cbn [key_upd]. change (KExpr (of_edit sf (x_upd h e)) = KExpr (of_edit sf e)). now destruct e.
  - rewrite <- H2. change (KExpr (of_edit sf (DX (x_upd h e))) = KExpr (of_edit sf (DX e))). now destruct e.
Qed.
Lemma plain_as_read : forall e, plain e = true -> R e = e.
Proof.
  assert (LM : forall l, Forall (fun e => plain e = true -> R e = e) l -> forallb plain l = true -> map R l = l).
  { induction 1 as [|e l H _ IH]; [reflexivity|]. cbn [forallb map]. rewrite andb_true_iff. intros [H1 H2]. now rewrite H, IH. }
  induction e using expr_ind'; cbn [plain as_read]; intros HP; andb; try reflexivity; try discriminate.
  - now rewrite LM.
  - rewrite IHe by assumption. f_equal. rename H into HF. induction HF as [|o ops Ho _ IH]; [reflexivity|]. cbn [forallb map] in *. andb.
    rewrite IH by assumption. destruct o; try reflexivity. cbn [trop_all] in Ho. now rewrite Ho.
  - now rewrite LM.
  - now rewrite IHe.
  - now rewrite IHe1, IHe2, IHe3.
  - now rewrite IHe.
  - now rewrite IHe1, IHe2.
  - rewrite IHe1, IHe2 by assumption. destruct key, cond; cbn [option_map opt_all] in *; repeat match goal with H : _ -> R _ = _ |- _ => rewrite H by assumption; clear H end; reflexivity.
Qed.
Lemma key_expr e : (forall x, e <> EVar x) -> plain e = true -> R e = e -> forall x, Q e x -> of_key sf (key_of_expr x) = KExpr e /\ of_key sf (key_map D leave (key_of_expr x)) = KExpr e.
Proof.
  intros HV HP ER x (A1 & A2). specialize (A1 HP). rewrite ER in *. assert (E : key_of_expr x = XKExpr x) by (destruct x; try reflexivity; cbn in A1; now destruct (HV x)).
  rewrite E. split; [change (KExpr (of_edit sf x) = KExpr e); now rewrite A1|]. change (KExpr (of_edit sf (DX x)) = KExpr e). now rewrite A2.
Qed.
Lemma eq_ctx F w nl r : F (61 :: 32 :: r) = true -> ctx F w nl (lit " = " ++ r).
Proof. intros H. lits. cbn [app]. apply (ctx_sign u HU); [reflexivity|reflexivity|exact H]. Qed.
Lemma key_ident x (K : xkey -> Prop) r : is_ident u x = true -> reserved x = false -> K (XKId (Did no_meta x)) -> @KEY inp u b pf x K (lit " = " ++ r).
Proof.
  intros H1 H2 HK. exists (fun y => exists m, y = XVar m x). split; [|intros y (m & ->); exact HK].
  pose proof (eq_ctx stop false false r eq_refl) as HC. destruct (ctx_at u stop false false false _ (fun H => H) HC) as [C1 C2]. cbn [orb] in *.
  apply (expr_opn u b pf false x false); [|exact C2]. apply opn_term. apply term_plain.
  - intros j _. apply (start_ident u b pf HU _ false x (fun y => exists m, y = XVar m x)); auto; [apply HC|split; [now apply stop_nocomment|exact C1]|]. rewrite keyword_var by exact H2. eauto.
  - intros f y (m & ->). cbn. eauto.
  - now apply halt_level.
Qed.
Lemma key_read k n key : key_readable key -> okey_all P key ->
  opens (key_text k n key) /\ (forall r, @KEY inp u b pf (key_text k n key) (Qk key) (lit " = " ++ r)) /\ (soft_key sf key = true -> calm (key_text k n key)) /\ plain_key (Rk key) = true.
Proof.
  intros HK HP. destruct key as [x|e]; cbn [key_readable key_text read_key] in *.
  - destruct (variable_not_for x HK) as [H1 H2]. split; [now apply opens_word|]. split; [|split; [intros _; now apply calm_ident|reflexivity]].
    intros r. apply key_ident; [exact H1|apply HK|]. split; reflexivity.
  - destruct (match e with EStr _ => true | _ => false end) eqn:ES.
    + destruct e; try discriminate. cbn [read_key]. unfold str_key. destruct (c_ident_keys c && is_ident u s) eqn:EC.
      * apply andb_true_iff in EC. destruct EC as [EC1 EC2]. assert (EF : s <> lit "for") by (intros ->; discriminate HK).
        split; [now apply opens_word|]. split; [|split; [intros _; now apply calm_ident|reflexivity]].
        intros r. apply key_ident; auto. split; cbn [read_key]; rewrite EC1, EC2; reflexivity.
      * destruct (HP HK) as (_ & _ & _ & _ & HE). pose proof (show_opens (EStr s) HK k n) as HO. cbn [FmtSpec.show] in HO.
        split; [exact HO|]. split; [|split; [intros _; exact (soft_calm (EStr s) HK eq_refl k n)|reflexivity]].
        intros r. exists (Q (EStr s)). split; [apply (HE k n); now apply eq_ctx|]. intros x HQ. destruct (key_expr (EStr s) ltac:(discriminate) eq_refl eq_refl x HQ) as (A1 & A2).
        split; cbn [read_key]; rewrite EC; auto.
    + assert (ET : match e with EStr s => str_key u c s | e => show k n e end = show k n e) by (destruct e; auto; discriminate).
      assert (EV : forall x, e <> EVar x) by (intros x ->; exact HK).
      assert (HK' : plain e = true /\ readable e) by (destruct e; auto; try discriminate; contradiction).
      assert (EK : Rk (KExpr e) = KExpr e) by (destruct e; auto; discriminate). cbn [read_key] in EK.
      change (match e with EStr s => str_key u c s | _ => show k n e end) with (match e with EStr s => str_key u c s | e => show k n e end). rewrite ET.
      destruct HK' as [HPl HR]. destruct (HP HR) as (_ & _ & _ & _ & HE).
      split; [now apply show_opens|]. split; [|split; [intros HS; now apply soft_calm|now rewrite EK]].
      intros r. exists (Q e). split; [apply HE; now apply eq_ctx|]. intros x HQ. destruct (key_expr e EV HPl (plain_as_read e HPl) x HQ) as (A1 & A2). split; cbn [read_key]; rewrite EK; auto.
Qed.

Definition entry (p : okey expr * expr) : Prop := (key_readable (fst p) /\ okey_all P (fst p)) /\ good (snd p).
Definition okv_of (p : okey expr * expr) : okv := (Qk (fst p), Q (snd p)).
Section Lines.
Context (k : bool) (n d : nat).
(** Items on lines of their own. *)
Fixpoint lines_text (w : str) (m : list (okey expr * expr)) : str :=
  match m with
  | [] => pad c n
  | p :: m => (w ++ key_text k d (fst p) ++ lit " = " ++ show k d (snd p) ++ [10]) ++ lines_text (pad c d) m
  end.
Lemma lines_ctx (p : okey expr * expr) (m : list (okey expr * expr)) (rest : str) : match m with [] => True | q :: _ => entry q /\ (wide (snd p) = true -> soft_key sf (fst q) = true) end ->
  ctx stop (wide (snd p)) false ([10] ++ lines_text (pad c d) m ++ [125] ++ rest).
Proof.
  intros H. split; [now apply (not_cont u HU)|]. split; [exact I|]. intros mo _ Hm. destruct mo.
  - destruct (Hm eq_refl) as [E|E]; [discriminate|]. rewrite (skip_app true [10]) by reflexivity. destruct m as [|q m]; cbn [lines_text].
    + rewrite (skip_app true (pad c n)) by apply pad_multi. change ([125] ++ rest) with (125 :: rest). rewrite (skip_stay true 125) by reflexivity. split; [now destruct rest|reflexivity].
    + destruct H as [[[HK HP] _] HS]. destruct (key_read k d (fst q) HK HP) as (_ & _ & HC & _). specialize (HC (HS E)). rewrite <- !app_assoc. rewrite (skip_app true (pad c d)) by apply pad_multi.
      destruct (calm_stop _ (calm_app _ (lit " = " ++ show k d (snd q) ++ [10] ++ lines_text (pad c d) m ++ [125] ++ rest) HC)) as (S1 & S2 & S3). rewrite S3. auto.
  - rewrite skip_ends by reflexivity. split; [|reflexivity]. now destruct (lines_text _ m).
Qed.
Lemma lines_ok rest m : Forall entry m -> chain (fun p q => wide (snd p) = true -> soft_key sf (fst q) = true) m -> forall w, multi w -> @OBJ inp u b pf rest (lines_text w m) (map okv_of m).
Proof.
  induction 1 as [|p m Hp Hm IH]; intros HC w Hw; cbn [lines_text map]; [constructor; apply pad_multi|].
  assert (HC' : chain (fun p q => wide (snd p) = true -> soft_key sf (fst q) = true) m) by (destruct m; [exact I|apply HC]).
  destruct Hp as [[HK HP] [HR HE]]. destruct (key_read k d (fst p) HK HP) as (K1 & K2 & _ & _).
  apply OBJ_more; auto using show_opens, Q_stable, Qk_stable, pad_multi.
  apply HE. apply lines_ctx. destruct m as [|q m]; [exact I|]. inversion Hm; subst. split; [assumption|apply HC].
Qed.
(** Items on one line. *)
Fixpoint comma_text (p : okey expr * expr) (m : list (okey expr * expr)) : str :=
  match m with
  | [] => [32] ++ key_text k d (fst p) ++ lit " = " ++ show k d (snd p) ++ [32]
  | q :: m => ([32] ++ key_text k d (fst p) ++ lit " = " ++ show k d (snd p) ++ [44]) ++ comma_text q m
  end.
Lemma commas_ok rest m : forall p, Forall entry (p :: m) -> @OBJ inp u b pf rest (comma_text p m) (map okv_of (p :: m)).
Proof.
  induction m as [|q m IH]; intros p HF; inversion HF as [|? ? [[HK HP] [HR HE]] HF']; subst; destruct (key_read k d (fst p) HK HP) as (K1 & K2 & _ & _); cbn [comma_text map].
  - apply (OBJ_last u b pf rest [32] _ _ [32]); auto using show_opens, Q_stable, Qk_stable. apply HE. cbn [app]. eapply (ctx_const u); [now apply (not_cont u HU)|exact I| | |].
    + intros mo. rewrite skip_space. now apply skip_stay.
    + now destruct rest.
    + reflexivity.
  - apply OBJ_more; auto using show_opens, Q_stable, Qk_stable; [|now apply IH]. apply HE. apply (ctx_stop_close u HU). cbn; auto.
Qed.
End Lines.

Lemma entries_apart m : Forall entry m -> ForallOrdPairs apart_keys (map (fun p => Rk (fst p)) m) -> ForallOrdPairs apart (map okv_of m).
Proof.
  intros HF HA. apply (FOP_map okv_of). apply FOP_map in HA. revert HF HA. apply FOP_impl. intros p q [[HK HP] _] _ HA k k' Hk Hk'. unfold okv_of in *. cbn [fst] in *.
  destruct Hk as [Hk _], Hk' as [Hk' _]. destruct (key_eqb k k') eqn:E; [|reflexivity]. apply (key_loose sf) in E.
  - rewrite Hk, Hk' in E. unfold apart_keys in HA. congruence.
  - rewrite Hk. exact (proj2 (proj2 (proj2 (key_read false 0 (fst p) HK HP)))).
Qed.
Lemma items_read m is : Forall2 item_fits (map okv_of m) is ->
  map (of_item sf) (map (item_map D leave) is) = map (fun p => (Rk (fst p), R (snd p))) m.
Proof.
  revert is. induction m as [|p m IH]; intros is H; cbn [map] in H; inversion H as [|? i ? is' Hi His]; subst; [reflexivity|]. destruct i as [k a v t]. destruct Hi as [(_ & A2) (_ & B2)].
  cbn [map]. f_equal; auto. change ((of_key sf (key_map D leave k), of_edit sf (DX v)) = (Rk (fst p), R (snd p))). now rewrite A2, B2.
Qed.
Lemma read_collect m : Forall entry m -> ForallOrdPairs apart_keys (map (fun p => Rk (fst p)) m) ->
  eobj_collect (map (fun p => (Rk (fst p), R (snd p))) m) = map (fun p => (Rk (fst p), R (snd p))) m.
Proof.
  intros HF HA. apply collect_apart. apply (FOP_map (fun p => (Rk (fst p), R (snd p)))). apply FOP_map in HA. revert HF HA. apply FOP_impl. intros p q [[HK HP] _] _ HA. cbn [fst].
  apply apart_distinct; [|exact HA]. exact (proj2 (proj2 (proj2 (key_read false 0 (fst p) HK HP)))).
Qed.

Definition item_text (k : bool) (d : nat) (p : okey expr * expr) : str := key_text k d (fst p) ++ lit " = " ++ show k d (snd p).
Lemma lines_tail k n d m : flat_map (fun t => newline c d ++ t) (map (item_text k d) m) ++ newline c n = [10] ++ lines_text k n d (pad c d) m.
Proof.
  induction m as [|q m IH]; cbn [map flat_map lines_text]; [reflexivity|]. rewrite <- !app_assoc, IH. unfold newline, item_text. now rewrite <- !app_assoc.
Qed.
Lemma commas_tail k d : forall m p, item_text k d p ++ flat_map (fun t => lit ", " ++ t) (map (item_text k d) m) ++ [32] = tl (comma_text k d p m).
Proof.
  induction m as [|q m IH]; intros p; cbn [map flat_map comma_text].
  - cbn [app tl]. unfold item_text. now rewrite <- !app_assoc.
  - rewrite <- !app_assoc. rewrite IH. cbn [app tl]. unfold item_text. rewrite <- !app_assoc. do 3 f_equal. lits. cbn [app]. f_equal. now destruct m.
Qed.
Notation for_ahead := (ParseBase.bind ws (fun _ => ParseBase.bind (tag (lit "for")) (fun _ => one_of (fun c => (c =? 32) || (c =? 9) || (c =? 35) || (c =? 47) || (c =? 10))))).
Lemma P_obj m : Forall (fun p => okey_all P (fst p) /\ P (snd p)) m -> P (EObj m).
Proof.
  intros IH. apply base_pack; [reflexivity|]. intros (HR & HA & HC) _ k n nl rest _ _ _.
  assert (HE : Forall entry m).
  { clear HA HC. induction IH as [|p m [H1 H2] _ IHm]; [constructor|]. destruct HR as [[HR1 HR2] HR3]. constructor; [|now apply IHm]. split; [split; [exact HR1|exact H1]|].
    split; [exact HR2|]. now apply H2. }
  rewrite show_obj. cbn [sticky]. rewrite orb_false_r. cbv zeta. set (k' := c_objects c || k). set (d := deeper k' n).
  assert (HQ : forall mt is tr, Forall2 item_fits (map okv_of m) is -> Q (EObj m) (XObj mt is tr)).
  { intros mt is tr HI'. split; [discriminate|]. cbn [as_read].
    change (of_edit sf (DX (XObj mt is tr))) with (EObj (eobj_collect (map (of_item sf) (map (item_map D leave) is)))). rewrite (items_read m is HI'). now rewrite read_collect. }
  assert (ET : exists t, obj_text c k' n (map (fun p => (key_text k d (fst p), show k d (snd p))) m) = [123] ++ t ++ [125] /\ @OBJ inp u b pf rest t (map okv_of m) /\ miss inp for_ahead (t ++ [125] ++ rest)).
  { unfold obj_text. rewrite map_map. change (fun x => fst (key_text k d (fst x), show k d (snd x)) ++ lit " = " ++ snd (key_text k d (fst x), show k d (snd x))) with (item_text k d).
    destruct m as [|p m].
    - exists []. split; [now destruct k'|]. split; [now constructor|]. now apply miss_for_close.
    - assert (HK : opens (key_text k d (fst p))) by (inversion HE as [|? ? [[H1 H2] _] _]; subst; now apply (key_read k d)).
      destruct k' eqn:EK; unfold seq_text; cbn [map].
      + exists (comma_text k d p m). split; [|split].
        * rewrite commas_tail. assert (E : [32] ++ tl (comma_text k d p m) = comma_text k d p m) by now destruct m. rewrite E. reflexivity.
        * now apply commas_ok.
        * replace (comma_text k d p m ++ [125] ++ rest) with ([32] ++ key_text k d (fst p) ++ (lit " = " ++ (show k d (snd p) ++ match m with [] => [32] | q :: m => [44] ++ comma_text k d q m end ++ [125] ++ rest))).
          -- apply (miss_for u HU); [reflexivity|exact HK|]. lits. now apply (not_cont u HU).
          -- destruct m; cbn [comma_text]; now rewrite <- !app_assoc.
      + exists (lines_text k n d (newline c d) (p :: m)). split; [|split].
        * cbn [lines_text]. unfold d at 1 2 4. cbn [deeper]. fold d. rewrite lines_tail. unfold item_text. now rewrite <- !app_assoc.
        * apply lines_ok; auto. apply newline_multi.
        * cbn [lines_text]. rewrite <- !app_assoc. apply (miss_for u HU); [apply newline_multi|exact HK|]. lits. now apply (not_cont u HU). }
  destruct ET as (t & -> & HO & HM). apply (start_object u b pf HU nl t (map okv_of m)); auto. now apply entries_apart.
Qed.

Lemma all_P : forall e, P e.
Proof.
  apply expr_ind'; auto using P_string, P_num, P_arr, P_obj, P_trav, P_call, P_paren, P_cond, P_unary, P_binary, P_for.
  - apply (P_word (lit "null")); try reflexivity; intros; [now apply ident_letters|split; reflexivity].
  - intros d. apply (P_word (if d then lit "true" else lit "false")); try reflexivity; intros; destruct d; try (now apply ident_letters); split; reflexivity.
  - intros t. apply base_pack; [reflexivity|]. intros HR _ k n nl rest He _ _. cbn [sticky FmtSpec.show]. rewrite orb_false_r.
    apply (FmtQuote.tpl_reads u b pf sf c HU HI); auto. intros x HQ. split; [discriminate|exact HQ].
  - intros x. apply (P_word x); try reflexivity; intros HR; [apply HR|]. rewrite keyword_var by apply HR. split; reflexivity.
Qed.
(** Where an expression may follow: nothing that continues it, on this line and, after expressions that
    ignore line breaks, on the next. *)
Lemma expr_read e k n nl rest : readable e -> ctx stop (wide e) nl rest -> EXPR nl (show k n e) (Q e) rest.
Proof. intros HR HC. destruct (all_P e HR) as (_ & _ & _ & _ & HE). now apply HE. Qed.
End Rt.

Section Top.
Context (u : unicode) (b : build) (pf : str -> f64) (sf : f64 -> str) (c : cfg) (HU : ascii_exact u) (HI : forallb is_space (c_indent c) = true).
Lemma read_expr k n e : readable u b pf sf c e -> exists x, parse_expr u b pf (show u sf c k n e) = Parsed x /\ of_edit sf x = as_read u c e.
Proof.
  intros HR. destruct (eat_parse u b pf (show u sf c k n e) (@Q (show u sf c k n e) u sf c e)) as (x & E & HQ).
  - apply (expr_read u b pf sf c HU HI); [exact HR|]. split; [exact I|]. split; [exact I|]. intros m _ _. destruct m; split; reflexivity.
  - eexists. split; [exact E|]. apply HQ.
Qed.
End Top.

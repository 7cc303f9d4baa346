(** * C35, C37, C42, C43: serialization *)
From Coq Require Import NArith ZArith Bool String List Lia.
From Verif Require Import Res Str NumberModel NumberProofs PrimModel PrimProofs Ast EvalSpec.
From Verif Require Import JsonModel ConvModel ConvSpec FmtModel FmtReadSpec FmtValueProofs ParseBase ParseModel EatLeaf DeModel SerModel SerSpec SerProofs SerText.
From Verif Require Import FmtReadProps.
Import ListNotations.
Open Scope list_scope.

(** ** C35: the thread-local state

    Whatever is serialized, and whether the call returns, fails or panics: the flag is as before, no
    handle number is given out again (the counters never go back), and the next handle is not alive. *)
Theorem C35_flag u b l s : flag (run_all u b l s) = flag s.
Proof. revert s. induction l as [|[t d] l IH]; intros s; [reflexivity|]. cbn. unfold run_all in IH. rewrite IH. apply keeps_run. Qed.
Print Assumptions C35_flag.
Theorem C35_no_reuse u b l s : fresh s ->
  let s' := run_all u b l s in
  (last (exprs s) <= last (exprs s'))%N /\ (last (structs s) <= last (structs s'))%N /\
  reg_get (last (exprs s')) (exprs s') = None /\ reg_get (last (structs s')) (structs s') = None.
Proof.
  intros Hs s'. enough (H : (last (exprs s) <= last (exprs s'))%N /\ (last (structs s) <= last (structs s'))%N /\ fresh s').
  { destruct H as (H1 & H2 & F1 & F2). repeat split; auto.
    - unfold reg_get. destruct (find _ _) as [[h x]|] eqn:E; [|reflexivity]. apply find_some in E as [Hi E]. apply N.eqb_eq in E. cbn in E.
      specialize (F1 _ _ Hi). lia.
    - unfold reg_get. destruct (find _ _) as [[h x]|] eqn:E; [|reflexivity]. apply find_some in E as [Hi E]. apply N.eqb_eq in E. cbn in E.
      specialize (F2 _ _ Hi). lia. }
  subst s'. revert s Hs. induction l as [|[t d] l IH]; intros s Hs; cbn.
  - repeat split; try lia; apply Hs.
  - destruct (keeps_run u b t d s) as (_ & H1 & H2 & H3). specialize (H3 Hs).
    destruct (IH _ H3) as (G1 & G2 & G3). cbn [fst snd] in *. unfold run_all in *. repeat split; try apply G3; lia.
Qed.
Print Assumptions C35_no_reuse.

(** If the types of the crate occur only where they are accepted ([placed], SerSpec.v), then after any
    sequence of calls, whatever their outcome, the same handles are alive as before. *)
Theorem C35_balanced_partial u b l s : fresh s ->
  Forall (fun c => placed (match fst c with ToValue => flag s | _ => true end) (pos_of (fst c)) (snd c) = true) l ->
  balanced s (run_all u b l s).
Proof.
  intros Hs H. revert s Hs H. induction l as [|[t d] l IH]; intros s Hs H; [apply balanced_refl|].
  inversion H as [|? ? H1 H2]; subst. cbn in *. destruct (ok_run u b t d s H1 Hs) as [B F].
  eapply balanced_trans; [exact B|]. apply IH; [exact F|]. destruct B as [-> _]. exact H2.
Qed.
Print Assumptions C35_balanced_partial.
(** And every handle is found when it is taken (it was put there and not taken before): a missing
    handle would be a panic. *)
Theorem C35_taken_partial u b d s : calm d = true -> fresh s ->
  (placed true AtExpr d = true -> fst (run_expr u b d s) <> SPanic) /\
  (placed true AtBody d = true -> fst (run_body u b d s) <> SPanic) /\
  (placed (flag s) AtValue d = true -> fst (run_value u b d s) <> SPanic).
Proof. intros Hc Hs. destruct (ok_run_calm u b d s Hc Hs) as (H1 & H2 & H3). repeat split; intros Hp; [now apply H1|now apply H2|now apply H3]. Qed.
Print Assumptions C35_taken_partial.
(** Serialization terminates: the nesting of calls in the data is finite. *)
Theorem C35_terminates_partial u b d s : calm d = true -> fresh s ->
  (placed true AtExpr d = true -> fst (run_expr u b d s) <> SFuel) /\
  (placed true AtBody d = true -> fst (run_body u b d s) <> SFuel) /\
  (placed (flag s) AtValue d = true -> fst (run_value u b d s) <> SFuel).
Proof. intros Hc Hs. destruct (ok_run_calm u b d s Hc Hs) as (H1 & H2 & H3). repeat split; intros Hp; [now apply H1|now apply H2|now apply H3]. Qed.
Print Assumptions C35_terminates_partial.

(** A struct with an expression, a block of structs, nested calls, and a type that fails half way. *)
Definition no_interp (e : expr) : str := [].
Definition var_x : sd := sd_expr no_interp (EVar (lit "x")).
Definition sample : sd :=
  DStruct (lit "Config")
    [(lit "a", var_x);
     (lit "b", DMarked false (DSeq [DStruct (lit "B") [(lit "c", DSeq [var_x; DUnit])]; DStruct (lit "B") []]));
     (lit "d", DMarked true (DMap [(DStr (lit "l"), DStruct (lit "B") [(lit "e", DSome var_x)])]));
     (lit "f", DCall ToExpr (DStruct (lit "G") [(lit "g", var_x); (lit "h", DFail)]) var_x (DCall ToBody (sd_body no_interp [SAttribute (lit "k") ENull]) var_x DPanic))].
Example C35_sample : placed true AtBody sample = true /\
  run_body ascii_unicode Release sample tls_new =
    (SOk [SAttribute (lit "a") (EVar (lit "x"));
          SBlk (lit "b") [] [SAttribute (lit "c") (EArr [EVar (lit "x"); ENull])];
          SBlk (lit "b") [] [];
          SBlk (lit "d") [BLString (lit "l")] [SAttribute (lit "e") (EVar (lit "x"))];
          SAttribute (lit "f") (EVar (lit "x"))],
     Tls false (Reg 5 []) (Reg 1 [])).
Proof. split; vm_compute; reflexivity. Qed.
(** An error with handles given out before and after: nothing is left alive. *)
Example C35_sample_error :
  let d := DStruct (lit "Config") [(lit "a", var_x); (lit "b c", var_x)] in
  placed true AtBody d = true /\ run_body ascii_unicode Release d tls_new = (SErr, Tls false (Reg 1 []) (Reg 0 [])).
Proof. split; vm_compute; reflexivity. Qed.

(** Elsewhere handles stay alive for ever, and their numbers become part of the result.  A block made of
    an [Expression]: *)
Theorem C35_block_of_expression_refuted :
  run_body ascii_unicode Release (DStruct (lit "S") [(lit "b", DMarked false (sd_expr no_interp (EObj [(KIdent (lit "k"), ENull)])))]) tls_new =
    (SOk [SBlk (lit "b") [] [SAttribute (lit "handle") (ENum (PosInt 0))]],
     Tls false (Reg 1 [(0%N, EObj [(KIdent (lit "k"), ENull)])]) reg_new).
Proof. vm_compute. reflexivity. Qed.
Print Assumptions C35_block_of_expression_refuted.
(** A body or an attribute turned into an expression: *)
Theorem C35_body_as_expression_refuted :
  run_expr ascii_unicode Release (sd_body no_interp [SAttribute (lit "k") ENull]) tls_new =
    (SOk (EArr [EObj [(KExpr (EStr (lit "handle")), ENum (PosInt 0))]]),
     Tls false reg_new (Reg 1 [(0%N, SAttribute (lit "k") ENull)])).
Proof. vm_compute. reflexivity. Qed.
Print Assumptions C35_body_as_expression_refuted.
(** A field that holds an [Attribute] or a [Block]: *)
Theorem C35_attribute_field_refuted :
  run_body ascii_unicode Release (DStruct (lit "S") [(lit "x", sd_struct no_interp (SAttribute (lit "k") ENull))]) tls_new =
    (SOk [SAttribute (lit "x") (EObj [(KExpr (EStr (lit "handle")), ENum (PosInt 0))])],
     Tls false reg_new (Reg 1 [(0%N, SAttribute (lit "k") ENull)])).
Proof. vm_compute. reflexivity. Qed.
Print Assumptions C35_attribute_field_refuted.
(** A map with [Expression]s for keys is an error, and leaves the key alive: *)
Theorem C35_expression_key_refuted :
  run_expr ascii_unicode Release (DMap [(sd_expr no_interp (EStr (lit "k")), DUnit)]) tls_new =
    (SErr, Tls false (Reg 1 [(0%N, EStr (lit "k"))]) reg_new).
Proof. vm_compute. reflexivity. Qed.
Print Assumptions C35_expression_key_refuted.
(** [to_value] called by a type that is being serialized to HCL: *)
Theorem C35_nested_to_value_refuted :
  snd (run_body ascii_unicode Release (DStruct (lit "S") [(lit "x", DCall ToValue var_x DUnit DUnit)]) tls_new) =
    Tls false (Reg 1 [(0%N, EVar (lit "x"))]) reg_new.
Proof. vm_compute. reflexivity. Qed.
Print Assumptions C35_nested_to_value_refuted.

(** ** C37: [to_value] and [from_value] on values

    Values with canonical numbers ([num_wf], C01: all that parsing and arithmetic produce, up to the
    exceptions of C01) come out as they went in, with the entries of objects in order; neither direction
    can fail or touches the thread-local state. *)
Theorem C37_values_partial u b v s : wf_value v -> numbers num_wf v ->
  run_value u b (sd_value v) s = (SOk v, s) /\ de_value b v = v.
Proof.
  intros W N. unfold run_value, to_value. rewrite ser_value_value. assert (E := de_value_same b v W N). now rewrite E.
Qed.
Print Assumptions C37_values_partial.
(** For every value, one pass makes the numbers canonical and changes nothing else; [from_value] after
    [to_value] changes nothing more. *)
Theorem C37_canonical u b v s : wf_value v ->
  exists v', run_value u b (sd_value v) s = (SOk v', s) /\ de_value b v' = v' /\ de_value b v = v'.
Proof.
  intros W. exists (de_value b v). unfold run_value, to_value. rewrite ser_value_value. repeat split. now apply de_value_twice.
Qed.
Print Assumptions C37_canonical.
(** Objects keep their keys in order. *)
Theorem C37_order u b m s : wf_value (VObj m) ->
  exists m', run_value u b (sd_value (VObj m)) s = (SOk (VObj m'), s) /\ map fst m' = map fst m.
Proof.
  intros [W1 _]. unfold run_value, to_value. rewrite ser_value_value. cbn [de_value]. rewrite from_iter_keys by exact W1.
  eexists. split; [reflexivity|]. rewrite map_map. reflexivity.
Qed.
Print Assumptions C37_order.
Example C37_sample :
  let v := VObj [(lit "b", VArr [VNull; VNum (NegInt (-1)); VNum (PosInt (2 ^ 63))]); (lit "a b", VStr (lit "${x}")); (lit "", VObj [])] in
  wf_value v /\ numbers num_wf v /\ run_value ascii_unicode Release (sd_value v) tls_new = (SOk v, tls_new).
Proof.
  cbv zeta. split; [|split].
  - cbn. repeat split; auto; repeat constructor; cbn; intuition discriminate.
  - cbn. unfold u64_max, i64_min. repeat split; auto; lia.
  - vm_compute. reflexivity.
Qed.
(** Numbers that are not canonical do change: the negative zero integer, floats without fractional part
    (beyond the range of [i64] even their value), and NaN. *)
Theorem C37_numbers_refuted :
  run_value ascii_unicode Release (sd_value (VNum (NegInt 0))) tls_new = (SOk (VNum (PosInt 0)), tls_new) /\
  run_value ascii_unicode Release (sd_value (VNum (NFloat (f64_of_Z 1)))) tls_new = (SOk (VNum (PosInt 1)), tls_new) /\
  run_value ascii_unicode Release (sd_value (VNum (NFloat (f64_of_Z (2 ^ 70))))) tls_new = (SOk (VNum (PosInt (2 ^ 63 - 1))), tls_new) /\
  run_value ascii_unicode Release (sd_value (VNum (NFloat BinarySingleNaN.B754_nan))) tls_new = (SOk VNull, tls_new).
Proof. repeat split; vm_compute; reflexivity. Qed.
Print Assumptions C37_numbers_refuted.
(** [to_expression] of a value agrees with [Expression::from]. *)
Theorem C37_to_expression u b v s : wf_value v -> numbers num_wf v -> run_expr u b (sd_value v) s = (SOk (expr_of_value v), s).
Proof.
  intros W N. unfold run_expr, to_expr, with_internal. rewrite ser_expr_value by exact W. rewrite de_value_same by assumption.
  now destruct s.
Qed.
Print Assumptions C37_to_expression.

(** ** C42: the crate's own types pass through its serializers unchanged

    [interp] is how expressions are shown to other serializers; it does not matter. *)
Theorem C42_expression u b interp e s : fresh s ->
  exists s', run_expr u b (sd_expr interp e) s = (SOk e, s') /\ balanced s s'.
Proof.
  intros Hs. unfold run_expr, to_expr, with_internal. rewrite run_own_expr; [|exact Hs|reflexivity].
  eexists. split; [reflexivity|]. repeat split.
Qed.
Print Assumptions C42_expression.
Theorem C42_body u b interp x s : fresh s ->
  exists s', run_body u b (sd_body interp x) s = (SOk x, s') /\ balanced s s'.
Proof.
  intros Hs. unfold run_body, to_body, with_internal.
  destruct (run_own_body u b (calls u b (depth (sd_body interp x))) interp x (set_flag true s) Hs eq_refl) as (s' & H1 & H2 & E).
  rewrite E. eexists. split; [reflexivity|]. unfold balanced in *. cbn in *. intuition.
Qed.
Print Assumptions C42_body.
(** So [hcl::to_string] of a body is its formatted text (C21 to C23). *)
Theorem C42_to_string u b sf interp c x s t : fresh s -> format_fresh (fm_body u sf c x) = Done t ->
  exists s', to_string u b sf c (sd_body interp x) s = (SOk t, s') /\ balanced s s'.
Proof.
  intros Hs E. destruct (C42_body u b interp x s Hs) as (s' & E' & B). exists s'. split; [|exact B].
  unfold to_string. rewrite E'. now rewrite E.
Qed.
Print Assumptions C42_to_string.
(** In a field of a struct, an expression becomes the value of the attribute. *)
Theorem C42_attribute u b interp k e s : fresh s -> is_ident u k = true ->
  exists s', run_body u b (DStruct (lit "S") [(k, sd_expr interp e)]) s = (SOk [SAttribute k e], s') /\ balanced s s'.
Proof.
  intros Hs Hk. unfold run_body, to_body, with_internal. set (n := calls u b _). cbn [ser_structs]. unfold structs_struct.
  replace (seqb (lit "S") struct_marker) with false by reflexivity. replace (seqb (lit "S") expr_marker) with false by reflexivity.
  unfold concatm, fmap, mapm, ident_new, ident_try_new. rewrite Hk. cbn [from_opt]. unfold bind, ret.
  rewrite run_own_attr; [|exact Hs|reflexivity]. cbn. eexists. split; [reflexivity|]. repeat split.
Qed.
Print Assumptions C42_attribute.
Example C42_sample :
  let x := [SBlk (lit "b") [BLIdent (lit "l"); BLString (lit "m")] [SAttribute (lit "a") (EObj [(KExpr (EParen ENull), EVar (lit "x"))])]] in
  run_body ascii_unicode Release (sd_body no_interp x) tls_new = (SOk x, Tls false reg_new (Reg 1 [])).
Proof. vm_compute. reflexivity. Qed.

(** Outside of a call of this crate, [Expression]s are shown to serializers as data; but an object with
    entries cannot be turned into a [Value], since its keys are not shown as strings. *)
Theorem C42_to_value_refuted :
  run_value ascii_unicode Release (sd_expr no_interp (EObj [(KExpr (EStr (lit "k")), ENull)])) tls_new = (SErr, tls_new).
Proof. vm_compute. reflexivity. Qed.
Print Assumptions C42_to_value_refuted.

(** ** C43: values written by [hcl::to_string] are read back by [hcl::from_str]

    For objects whose keys are identifiers: otherwise there is no text. *)
Theorem C43_text_partial u b pf sf c m s :
  ascii_exact u -> forallb is_space (c_indent c) = true -> c_ident_keys c = false ->
  written b pf sf (VObj m) -> numbers num_wf (VObj m) ->
  (Forall (fun p => is_ident u (fst p) = true) m ->
   exists t, to_string u b sf c (sd_value (VObj m)) s = (SOk t, s) /\ from_str u b pf sf t = Some (VObj m)) /\
  (~ Forall (fun p => is_ident u (fst p) = true) m -> to_string u b sf c (sd_value (VObj m)) s = (SErr, s)).
Proof.
  intros HU HI HC HW HN. assert (W := written_wf b pf sf _ HW). assert (Ed := de_value_same b _ W HN). assert (Hs : set_flag (flag s) (set_flag true s) = s) by now destruct s.
  split; intros Hk.
  - cbn [de_value] in Ed. rewrite from_iter_keys in Ed by apply W. injection Ed as Ed.
    assert (R : body_readable u b pf sf c (attrs m)).
    { split.
      - apply lall_Forall. unfold attrs. apply Forall_forall. intros x Hx. apply in_map_iff in Hx as (p & <- & Hp). cbn.
        split; [rewrite Forall_forall in Hk; now apply Hk|]. apply written_readable; [exact HC|].
        destruct HW as [HW _]. apply lall_Forall in HW. rewrite Forall_forall in HW. now apply HW.
      - replace (attr_keys (attrs m)) with (map fst m); [apply HW|]. clear. induction m as [|p m IH]; [reflexivity|]. cbn in *. now rewrite IH. }
    destruct (C21_bodies_same_partial u b pf sf c (attrs m) HU HI HC R (attrs_strict m)) as (t & E & Er). exists t. split.
    + unfold to_string, run_body, to_body, with_internal. rewrite to_body_value by assumption. rewrite Ed, E. now rewrite Hs.
    + unfold from_str. unfold read_body_text in Er. unfold read_body. rewrite Er. rewrite expr_of_attrs by apply W.
      rewrite de_any_value by exact W. f_equal. now apply de_value_same.
  - unfold to_string, run_body, to_body, with_internal. rewrite to_body_value_err by assumption. now rewrite Hs.
Qed.
Print Assumptions C43_text_partial.
(** Other values have no text at the top level (arrays of objects do, but it is read as one object). *)
Theorem C43_scalars u b sf c v s : match v with VArr _ | VObj _ => False | _ => True end ->
  to_string u b sf c (sd_value v) s = (SErr, s).
Proof.
  intros H. unfold to_string, run_body, to_body, with_internal. rewrite to_body_scalar by exact H. now destruct s.
Qed.
Print Assumptions C43_scalars.
Definition rtv (v : value) : option value :=
  match to_string ascii_unicode Release no_floats default_cfg (sd_value v) tls_new with
  | (SOk t, _) => from_str ascii_unicode Release zero_float no_floats t
  | _ => None
  end.
Definition value_sample : value :=
  VObj [(lit "b", VArr [VNull; VNum (NegInt (-1)); VNum (PosInt (2 ^ 63))]); (lit "a", VStr (lit "${x} %{ y } ""z"" \")); (lit "for", VObj [(lit "k k", VBool true)])].
Example C43_sample : written Release zero_float no_floats value_sample /\ numbers num_wf value_sample /\ rtv value_sample = Some value_sample.
Proof.
  split; [|split].
  - cbn. unfold u64_max. repeat match goal with |- _ /\ _ => split end; try reflexivity; try exact I; try lia; repeat constructor; cbn; intuition discriminate.
  - cbn. unfold u64_max, i64_min. repeat split; auto; lia.
  - vm_compute. reflexivity.
Qed.
(** A string for which escaping goes wrong (C05) is read as a template. *)
Theorem C43_escape_refuted : rtv (VObj [(lit "a", VStr (lit "${a}%${b}"))]) <> Some (VObj [(lit "a", VStr (lit "${a}%${b}"))]).
Proof. vm_compute. discriminate. Qed.
Print Assumptions C43_escape_refuted.

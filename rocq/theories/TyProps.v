(** * C47, C48: data of user-defined types *)
From Coq Require Import NArith ZArith Bool String List Lia.
From Flocq Require Import IEEE754.BinarySingleNaN.
From Verif Require Import Res Str NumberModel NumberProofs PrimModel PrimProofs Ast EvalSpec EqSpec JsonModel ConvSpec FmtModel FmtReadSpec ParseBase ParseModel EatLeaf.
From Verif Require Import DeModel SerModel SerSpec SerProofs SerText FmtReadProps SerProps TyModel TySpec TyBase TyProofs TyExpr TyGroup TyBody TyLayout.
Import ListNotations.
Open Scope list_scope.

(** ** C47: through [hcl::Value] and [hcl::Expression] *)

(** [to_value] and then [from_value] gives the data back, for all types built from the usual ones and all
    their data, as far as [kept] allows; nothing is left in the thread-local state. *)
Theorem C47_values_partial u b pf sf t x s : proper t -> has t x -> kept u b pf sf ByValue t x ->
  exists v, run_value u b (ser t x) s = (SOk v, s) /\ forall interp, from_value b interp t v = Some x.
Proof.
  intros P H K. set (nested := calls u b (depth (ser t x))). destruct (typed_value u b pf sf nested (fun _ => []) t x P H K) as (v & G & _). exists v.
  assert (E := G s I). split; [exact E|]. intros interp. destruct (typed_value u b pf sf nested interp t x P H K) as (v' & G' & D & _).
  assert (E' := G' s I). rewrite E in E'. injection E' as ->. exact D.
Qed.
Print Assumptions C47_values_partial.
(** The same for [to_expression] and the deserializer of expressions; moreover the expression can be
    printed and read (C21). *)
Theorem C47_expressions_partial u b pf sf c t x s : c_ident_keys c = false -> proper t -> has t x -> kept u b pf sf ByText t x ->
  exists e, run_expr u b (ser t x) s = (SOk e, s) /\ readable u b pf sf c e /\ strict e /\
    forall interp, de interp (hcl_num b) (de_value b) t (SExp e) = Some x.
Proof.
  intros HC P H K. set (nested := calls u b (depth (ser t x))).
  destruct (typed_expr u b pf sf c nested (fun _ => []) HC (fun s => flag s = true) t x P H K) as (e & G & _ & R & _). exists e.
  assert (E := G (set_flag true s) eq_refl). split; [|split; [apply R|split; [apply R|]]].
  - unfold run_expr, to_expr, with_internal. fold nested. rewrite E. now destruct s.
  - intros interp. destruct (typed_expr u b pf sf c nested interp HC (fun s => flag s = true) t x P H K) as (e' & G' & D & _).
    assert (E' := G' (set_flag true s) eq_refl). rewrite E in E'. injection E' as ->. exact D.
Qed.
Print Assumptions C47_expressions_partial.

(** ** C48: through HCL text *)

(** [to_string] and then [from_str] gives the data back: structs and maps are bodies, their fields
    attributes, or blocks if they are wrapped in [Block] or [LabeledBlock]. *)
Theorem C48_text_partial u b pf sf c t x s :
  ascii_exact u -> forallb is_space (c_indent c) = true -> c_ident_keys c = false ->
  proper t -> has t x -> fits u b pf sf PBody t x ->
  exists text, to_string u b sf c (ser t x) s = (SOk text, s) /\ from_text u b pf sf t text = Some x.
Proof.
  intros HU HI HC P H K. set (nested := calls u b (depth (ser t x))).
  destruct (typed_body u b pf sf c nested (interpolated u sf) HC t PBody x P H K) as (ss & G & R & D & _). apply exact_body_readable in R as [R R'].
  destruct (C21_bodies_same_partial u b pf sf c ss HU HI HC R R') as (text & E & Er). exists text. split.
  - unfold to_string, run_body, to_body, with_internal. fold nested. rewrite (G (set_flag true s) eq_refl). rewrite E. now destruct s.
  - unfold from_text. unfold read_body_text in Er. unfold read_body. rewrite Er. exact D.
Qed.
Print Assumptions C48_text_partial.
(** The same without text: [to_body] and then [from_body]. *)
Theorem C48_body_partial u b pf sf c t x s : c_ident_keys c = false ->
  proper t -> has t x -> fits u b pf sf PBody t x ->
  exists body, run_body u b (ser t x) s = (SOk body, s) /\ from_body u b sf t body = Some x.
Proof.
  intros HC P H K. set (nested := calls u b (depth (ser t x))).
  destruct (typed_body u b pf sf c nested (interpolated u sf) HC t PBody x P H K) as (ss & G & R & D & _). exists ss. split; [|exact D].
  unfold run_body, to_body, with_internal. fold nested. rewrite (G (set_flag true s) eq_refl). now destruct s.
Qed.
Print Assumptions C48_body_partial.

(** Whenever typed data is written as a body, it consists of the attributes and blocks, with their labels,
    that [plan_for] (TyLayout.v) says. *)
Theorem C48_layout u b t x s body s' : proper t -> has t x -> run_body u b (ser t x) s = (SOk body, s') -> map plan_of body = plan_for KBody t x.
Proof.
  intros P H. unfold run_body, to_body, with_internal.
  destruct (ser_structs u b (calls u b (depth (ser t x))) (ser t x) KBody (set_flag true s)) as [[ss| | |] s1] eqn:E; intros E1; try discriminate. injection E1 as -> _.
  now destruct (lays_type u b _ (keeps_calls u b _) t KBody x P H (set_flag true s) _ _ eq_refl E).
Qed.
Print Assumptions C48_layout.

(** ** Examples *)
Definition value_trip (t : ty) (x : tv) : option tv :=
  match run_value ascii_unicode Release (ser t x) tls_new with (SOk v, _) => from_value Release no_interp t v | _ => None end.
Definition text_of (t : ty) (x : tv) : option str :=
  match to_string ascii_unicode Release no_floats default_cfg (ser t x) tls_new with (SOk s, _) => Some s | _ => None end.
Definition text_trip (t : ty) (x : tv) : option tv :=
  match text_of t x with Some s => from_text ascii_unicode Release zero_float no_floats t s | None => None end.

(** [enum Role { Admin, Level(i64), At(i32, i32), Span { from: u8, to: Option<u8> } }] *)
Definition Role : ty := TEnum
  [(lit "Admin", ShUnit); (lit "Level", ShNew (TInt I64)); (lit "At", ShTuple [TInt I32; TInt I32]);
   (lit "Span", ShStruct [(lit "from", TInt U8); (lit "to", TOption (TInt U8))])].
(** [struct User { name: String, sign: char, role: Role, tags: Vec<String>, note: Option<String> }] *)
Definition User : ty := TStruct (lit "User")
  [(lit "name", TStr); (lit "sign", TChar); (lit "role", Role); (lit "tags", TSeq TStr); (lit "note", TOption TStr)].
(** [struct Config { user: LabeledBlock<Map<String, Map<String, User>>>, server: Block<Vec<Server>>,
    log: Option<Block<Map<String, bool>>>, extra: Value }] *)
Definition Config : ty := TStruct (lit "Config")
  [(lit "user", TBlock true (TMap TStr (TBlock true (TMap TStr User))));
   (lit "server", TBlock false (TSeq (TStruct (lit "Server") [(lit "port", TInt U16); (lit "owner", TBlock false User)])));
   (lit "log", TOption (TBlock false (TMap TStr TBool)));
   (lit "extra", TValue)].
Definition user (n : str) (role : tv) (tags : list str) (note : option str) : tv :=
  XList [XStr n; XChar 64; role; XList (map XStr tags); match note with Some s => XSome (XStr s) | None => XNone end].
Definition anna := user (lit "Anna ""${x}""") (XVar 0 []) [lit "a"; lit "b b"] None.
Definition bert := user (lit "Bert") (XVar 1 [XInt (-7)]) [] (Some (lit "note")).
Definition cleo := user (lit "Cleo") (XVar 3 [XInt 3; XNone]) [lit ""] None.
Definition dora := user (lit "Dora") (XVar 2 [XInt 3; XInt 4]) [lit ""] None.
Definition config : tv := XList
  [XMap [(XStr (lit "x"), XMap [(XStr (lit "a"), anna); (XStr (lit "b c"), bert)]); (XStr (lit "y"), XMap [(XStr (lit "a"), cleo)])];
   XList [XList [XInt 80; anna]; XList [XInt 443; dora]];
   XSome (XMap [(XStr (lit "on"), XBool true)]);
   XValue (VObj [(lit "k k", VArr [VNull; VBool false])])].
Ltac solve_kept := cbn; unfold u64_max, i64_min, i64_max; repeat match goal with |- _ /\ _ => split end; try reflexivity; try exact I; try lia; try discriminate;
  try tauto; try (repeat constructor; cbn; intuition discriminate).
Example C47_sample : proper User /\ has User bert /\ kept ascii_unicode Release zero_float no_floats ByValue User bert /\ value_trip User bert = Some bert /\
  kept ascii_unicode Release zero_float no_floats ByText User bert.
Proof. repeat match goal with |- _ /\ _ => split end; try (vm_compute; reflexivity); solve_kept. Qed.
Example C48_sample : proper Config /\ has Config config /\ fits ascii_unicode Release zero_float no_floats PBody Config config /\ text_trip Config config = Some config.
Proof. repeat match goal with |- _ /\ _ => split end; try (vm_compute; reflexivity); solve_kept. Qed.

Example C48_layout_sample :
  plan_for KBody Config config =
  let user := map Attr [lit "name"; lit "sign"; lit "role"; lit "tags"; lit "note"] in
  [Blk (lit "user") [lit "x"; lit "a"] user; Blk (lit "user") [lit "x"; lit "b c"] user; Blk (lit "user") [lit "y"; lit "a"] user;
   Blk (lit "server") [] [Attr (lit "port"); Blk (lit "owner") [] user]; Blk (lit "server") [] [Attr (lit "port"); Blk (lit "owner") [] user];
   Blk (lit "log") [] [Attr (lit "on")]; Attr (lit "extra")].
Proof. vm_compute. reflexivity. Qed.

(** ** Data that is lost *)

(** Struct with a single field without name: [to_value] writes what it wraps, [from_value] refuses it
    ([deserialize_newtype_struct] does not call [visit_newtype_struct]), also as the key of a map. *)
Theorem C47_newtype_refuted :
  let t := TNew (lit "N") TStr in let x := XStr (lit "a") in
  has t x /\ run_value ascii_unicode Release (ser t x) tls_new = (SOk (VStr (lit "a")), tls_new) /\ from_value Release no_interp t (VStr (lit "a")) = None /\
  value_trip (TMap t TStr) (XMap [(x, x)]) = None.
Proof. repeat split; vm_compute; reflexivity. Qed.
Print Assumptions C47_newtype_refuted.
(** Map keys: integers cannot be written to values, optional keys cannot be read. *)
Theorem C47_keys_refuted :
  fst (run_value ascii_unicode Release (ser (TMap (TInt U8) TStr) (XMap [(XInt 1, XStr (lit "a"))])) tls_new) = SErr /\
  (let t := TMap (TOption TStr) TStr in let x := XMap [(XSome (XStr (lit "k")), XStr (lit "a"))] in
   fst (run_value ascii_unicode Release (ser t x) tls_new) = SOk (VObj [(lit "k", VStr (lit "a"))]) /\ value_trip t x = None).
Proof. repeat split; vm_compute; reflexivity. Qed.
Print Assumptions C47_keys_refuted.
(** [Some(None)] becomes [None]. *)
Theorem C47_nested_option_refuted : value_trip (TOption (TOption TStr)) (XSome XNone) = Some XNone.
Proof. vm_compute. reflexivity. Qed.
Print Assumptions C47_nested_option_refuted.
(** Floats: NaN cannot be read back, and is [None] if optional; the sign of zero is lost; 2^70 becomes
    2^63 (C04). *)
Theorem C47_floats_refuted :
  value_trip TF64 (XF64 B754_nan) = None /\ value_trip (TOption TF64) (XSome (XF64 B754_nan)) = Some XNone /\
  value_trip TF64 (XF64 (B754_zero true)) = Some (XF64 (B754_zero false)) /\
  match value_trip TF64 (XF64 (f64_of_Z (2 ^ 70))) with Some (XF64 f) => Beqb f (f64_of_Z (2 ^ 63)) | _ => false end = true.
Proof. repeat split; vm_compute; reflexivity. Qed.
Print Assumptions C47_floats_refuted.

Definition Field (t : ty) : ty := TStruct (lit "S") [(lit "f", t)].
Definition field (x : tv) : tv := XList [x].
Definition item : tv := field (XStr (lit "a")).
(** Map keys which are newtypes or variants of an enum are written but not read; a negative integer
    after an array is read as a subtraction. *)
Theorem C48_keys_refuted :
  let lost t x := has t x /\ text_of t x <> None /\ text_trip t x = None in
  lost (Field (TMap (TNew (lit "N") TStr) TStr)) (field (XMap [(XStr (lit "k"), XStr (lit "a"))])) /\
  lost (Field (TMap Role TStr)) (field (XMap [(XVar 0 [], XStr (lit "a"))])) /\
  lost (Field (TMap (TInt I8) (TSeq TStr))) (field (XMap [(XInt (-1), XList []); (XInt (-2), XList [])])).
Proof.
  cbv zeta. repeat match goal with |- _ /\ _ => split end; try (vm_compute; reflexivity); try (vm_compute; discriminate); solve_kept.
Qed.
Print Assumptions C48_keys_refuted.
(** At the top level: an optional struct is written, but not read; a sequence of structs is written as
    one body. *)
Theorem C48_top_level_refuted :
  text_of (TOption (Field TStr)) (XSome item) = Some (lit "f = ""a""" ++ [10%N]) /\ text_trip (TOption (Field TStr)) (XSome item) = None /\
  text_of (TSeq (Field TStr)) (XList [item; item]) = Some (lit "f = ""a""" ++ [10%N] ++ lit "f = ""a""" ++ [10%N]) /\ text_trip (TSeq (Field TStr)) (XList [item; item]) = None.
Proof. repeat split; vm_compute; reflexivity. Qed.
Print Assumptions C48_top_level_refuted.
(** [Block<Vec<T>>] with a single element is read as the element itself, with none the field is
    missing; the same for maps of labels without entries. *)
Theorem C48_few_blocks_refuted :
  let t := Field (TBlock false (TSeq (Field TStr))) in let l := Field (TBlock true (TMap TStr (Field TStr))) in
  text_trip t (field (XList [item; item])) = Some (field (XList [item; item])) /\
  text_trip t (field (XList [item])) = None /\
  text_of t (field (XList [])) = Some [] /\ text_trip t (field (XList [])) = None /\
  text_of l (field (XMap [])) = Some [] /\ text_trip l (field (XMap [])) = None.
Proof. repeat split; vm_compute; reflexivity. Qed.
Print Assumptions C48_few_blocks_refuted.
(** [Block<Option<T>>] cannot be [None], while [Option<Block<T>>] can. *)
Theorem C48_block_none_refuted :
  text_of (Field (TBlock false (TOption (Field TStr)))) (field XNone) = None /\
  text_trip (Field (TOption (TBlock false (Field TStr)))) (field XNone) = Some (field XNone).
Proof. split; vm_compute; reflexivity. Qed.
Print Assumptions C48_block_none_refuted.
(** Reading is lenient in two ways: a string can be read from any expression, which gives the text of a
    template, and surplus elements of a tuple are ignored. *)
Example C48_string_from_number : from_text ascii_unicode Release zero_float no_floats (Field TStr) (lit "f = 1") = Some (field (XStr (lit "${1}"))).
Proof. vm_compute. reflexivity. Qed.
Example C48_longer_tuple : from_text ascii_unicode Release zero_float no_floats (Field (TTuple [TBool])) (lit "f = [true, 2]") = Some (field (XList [XBool true])).
Proof. vm_compute. reflexivity. Qed.

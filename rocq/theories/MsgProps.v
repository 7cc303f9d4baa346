(** * The texts of evaluation errors (C56) *)
From Coq Require Import NArith ZArith Arith Bool String List Lia.
From Verif Require Import Res Str Dec NumberModel PrimModel Ast EqSpec EvalModel EvalSpec EvalSem FmtModel EatLeaf FmtReadSpec FmtReadProps.
From Verif Require Import MsgModel MsgSpec MsgProofs.
Import ListNotations.
Open Scope N_scope.

(** ** Types *)

(** Parameter types with the same text accept the same values. *)
Theorem C56_param_types t1 t2 v : alternatives t1 -> alternatives t2 -> ptype_str t1 = ptype_str t2 -> satisfied t1 v = satisfied t2 v.
Proof.
  intros A1 A2 E. destruct (ptype_eq _ t1 t2 [] [] (le_n _) I I) as [S _]; [now rewrite E|]. apply eq_iff_eq_true. rewrite !satisfied_has_type by assumption. apply S.
Qed.
Print Assumptions C56_param_types.
(** Without the condition they need not: a type without alternatives is shown as the one of all values,
    and accepts none. *)
Theorem C56_param_types_refuted : exists t1 t2 v, ptype_str t1 = ptype_str t2 /\ satisfied t1 v = true /\ satisfied t2 v = false.
Proof. now exists PAny, (POneOf []), VNull. Qed.
Print Assumptions C56_param_types_refuted.

(** ** Calls *)

(** A call fails with the message about the number of arguments exactly if it is wrong; otherwise with
    the message that names the first argument without the type of its parameter, its position and that
    type; otherwise the function is called. *)
Theorem C56_calls u sf fd args : well_declared fd ->
  (~ arity_ok fd args -> call_msg u sf fd args =
     inr (lit "expected " ++ show_N (N.of_nat (length (fd_params fd))) ++ lit " positional arguments, got " ++ show_N (N.of_nat (length args)))%list) /\
  (forall pos p v, arity_ok fd args -> first_misfit fd args pos p v -> call_msg u sf fd args =
     inr (lit "expected " ++ (if Nat.ltb pos (length (fd_params fd)) then [] else lit "variadic ") ++ lit "argument at position " ++ show_N (N.of_nat pos) ++
          lit " to be of type " ++ ptype_str p ++ lit ", got `" ++ value_str u sf v ++ lit "`")%list) /\
  (arity_ok fd args -> (forall pos p v, ~ first_misfit fd args pos p v) -> call_msg u sf fd args = fd_func fd (FArgs args (length (fd_params fd)))).
Proof.
  intros W. destruct (call_cases u sf fd args W) as [[N E]|[(A & pos & p & v & M & E)|[F E]]].
  - repeat split; [auto|tauto|tauto].
  - repeat split; [tauto| |intros _ H; now apply H in M]. intros pos' p' v' _ M'.
    assert (pos = pos') as <-.
    { destruct M as (M1 & M2 & M3 & M4), M' as (N1 & N2 & N3 & N4). destruct (Nat.lt_trichotomy pos pos') as [L|[L|L]]; [|exact L|]; exfalso; eauto. }
    destruct M as (M1 & M2 & _), M' as (N1 & N2 & _). replace p' with p by congruence. replace v' with v by congruence. rewrite E. now destruct (Nat.ltb _ _).
  - assert (T : forall pos p v, ~ first_misfit fd args pos p v).
    { intros pos p v (M1 & M2 & M3 & _). apply M3. apply EvalSem.fits_split in F as (F1 & F2 & F3). unfold arg_types in M2.
      destruct (Nat.lt_ge_cases pos (length (fd_params fd))) as [L|L].
      - rewrite nth_error_app1 in M2 by exact L. clear -F2 M1 M2 L. 
        assert (M1' : nth_error (firstn (length (fd_params fd)) args) pos = Some v) by (rewrite nth_firstn; destruct (Nat.ltb_spec pos (length (fd_params fd))); [exact M1|lia]). clear M1 L.
        revert pos M1' M2. induction F2; intros [|pos] M1 M2; try discriminate; cbn in M1, M2; [congruence|eauto].
      - rewrite nth_error_app2 in M2 by exact L. destruct (fd_variadic fd) as [q|]; [|now rewrite nth_error_nil' in M2]. apply nth_repeat in M2. subst q.
        rewrite Forall_forall in F3. apply F3. apply (nth_error_In _ (pos - length (fd_params fd))). rewrite nth_skipn. now replace (length (fd_params fd) + (pos - length (fd_params fd)))%nat with pos by lia. }
    repeat split; [|intros pos p v _ M; now apply T in M|auto]. intros N. exfalso. apply N. apply EvalSem.fits_split in F as (F1 & F2 & F3). split; [exact F1|]. intros V. now rewrite V in F3.
Qed.
Print Assumptions C56_calls.
(** The result is that of the evaluator's calls (EvalModel.v), apart from the texts. *)
Theorem C56_calls_evaluated u sf fd args v : call_msg u sf fd args = inl v <-> call_func fd args = inl v.
Proof. rewrite call_same. destruct (call_func fd args); split; intros E; try discriminate; congruence. Qed.
Print Assumptions C56_calls_evaluated.
(** Each of the messages says which argument it is about: messages with the same text agree on the
    position, on what the type accepts, and on the value. *)
Theorem C56_arguments_partial u b pf sf pos1 p1 v1 pos2 p2 v2 :
  ascii_exact u -> value_ok u b pf sf v1 -> value_ok u b pf sf v2 ->
  positional_msg u sf pos1 p1 v1 = positional_msg u sf pos2 p2 v2 \/ variadic_msg u sf pos1 p1 v1 = variadic_msg u sf pos2 p2 v2 ->
  pos1 = pos2 /\ (forall v, has_type p1 v <-> has_type p2 v) /\ v1 = v2.
Proof.
  intros HU V1 V2 E.
  assert (G : forall w, argw w -> arg_msg u sf w pos1 p1 v1 ++ [] = arg_msg u sf w pos2 p2 v2 ++ [] -> pos1 = pos2 /\ (forall v, has_type p1 v <-> has_type p2 v) /\ v1 = v2).
  { intros w W F. apply (arg_eq u b pf sf HU) in F as (_ & F1 & F2 & _ & F3 & _); auto. }
  destruct E as [E|E]; [apply (G (lit "expected argument at position ")); [now left|]|apply (G (lit "expected variadic argument at position ")); [now right|]];
    unfold arg_msg; rewrite !app_nil_r, <- !app_assoc; exact E.
Qed.
Print Assumptions C56_arguments_partial.

(** ** Errors *)

(** Different errors have different texts: the kind, the names, values, operators and keys, and the
    expression can all be told from the text.  [error_ok] (MsgSpec.v): the values and expressions are those
    whose text is read back as they are (C21); keys and the messages of functions have no grave accents
    (or are the messages above); errors with a text only are left out.  Without the conditions texts can
    coincide: [C56_keys_refuted] and the next theorems. *)
Theorem C56_errors_partial u b pf sf e1 e2 : ascii_exact u -> error_ok u b pf sf e1 -> error_ok u b pf sf e2 ->
  error_str u sf e1 = error_str u sf e2 -> e1 = e2.
Proof. intros. now apply (error_eq u b pf sf). Qed.
Print Assumptions C56_errors_partial.

Definition x_expr : expr := EVar (lit "x").
Theorem C56_keys_refuted u sf : exists e1 e2, e1 <> e2 /\ error_str u sf e1 = error_str u sf e2.
Proof.
  exists (Error (NoSuchKey (lit "a` in expression `x")) None), (Error (NoSuchKey (lit "a")) (Some x_expr)). split; [discriminate|reflexivity].
Qed.
Print Assumptions C56_keys_refuted.
Theorem C56_messages_refuted u sf : exists m e, Error (Message m) None <> e /\ error_str u sf (Error (Message m) None) = error_str u sf e.
Proof. exists (lit "index out of bounds: 3"), (Error (BadIndex 3) None). split; [discriminate|reflexivity]. Qed.
Print Assumptions C56_messages_refuted.
Theorem C56_function_messages_refuted u sf : exists f m e, Error (FuncFailed f m) None <> e /\ error_str u sf (Error (FuncFailed f m) None) = error_str u sf e.
Proof.
  exists (FuncName [] (lit "f")), (lit "no in expression `x`"), (Error (FuncFailed (FuncName [] (lit "f")) (lit "no")) (Some x_expr)). split; [discriminate|reflexivity].
Qed.
Print Assumptions C56_function_messages_refuted.

(** ** Several errors *)

(** Adding up the results of all parts: there is none exactly if no part has any; otherwise all of them
    are there, in order. *)
Theorem C56_collected l :
  (fold_left add_errors l None = None <-> Forall (fun x => x = None) l) /\
  (forall r, fold_left add_errors l None = Some r -> r = concat (map (fun x => match x with Some e => e | None => [] end) l)).
Proof.
  split; [apply add_none|]. intros r E. assert (H := add_listed l None). rewrite E in H. cbn [listed app] in H. exact H.
Qed.
Print Assumptions C56_collected.
(** Different lists of errors have different texts, if each error has one line. *)
Theorem C56_lists_partial u b pf sf l1 l2 : ascii_exact u -> Forall (error_ok u b pf sf) l1 -> Forall (error_ok u b pf sf) l2 ->
  Forall (fun e => one_line (error_str u sf e)) l1 -> Forall (fun e => one_line (error_str u sf e)) l2 ->
  errors_str u sf l1 = errors_str u sf l2 -> l1 = l2.
Proof. intros. now apply (errors_eq u b pf sf). Qed.
Print Assumptions C56_lists_partial.
(** A list starts with the number of errors, unless there is only one. *)
Theorem C56_counted u sf l : length l <> 1%nat ->
  exists r, errors_str u sf l = show_N (N.of_nat (length l)) ++ lit " errors occurred:" ++ [10] ++ r /\
    (Forall (fun e => one_line (error_str u sf e)) l -> length (filter (N.eqb 10) r) = length l).
Proof.
  intros H. eexists. split; [now apply errors_many|]. intros F. clear H. induction F as [|e l He F IH]; [reflexivity|]. cbn [map concat length].
  rewrite !filter_app, !app_length, IH. replace (filter (N.eqb 10) (error_str u sf e)) with (@nil N); [reflexivity|].
  revert He. unfold one_line. induction (error_str u sf e) as [|c s IHs]; [reflexivity|]. intros H. cbn [filter]. destruct (N.eqb_spec 10 c) as [<-|]; [exfalso; apply H; now left|]. apply IHs. intros G. apply H. now right.
Qed.
Print Assumptions C56_counted.

(** ** Examples *)
Notation ok := (error_ok ascii_unicode Release zero_float no_floats).
Notation shown e := (error_str ascii_unicode no_floats e).
Definition a_value : value := VObj [(lit "a", VArr [VNum (PosInt 1); VNull]); (lit "b` c", VStr (lit "x` in expression `y"))].
Lemma a_value_ok : value_ok ascii_unicode Release zero_float no_floats a_value.
Proof.
  cbn. repeat first [split | reflexivity | exact I | discriminate | constructor].
  all: try (cbn; intuition discriminate).
  all: intros (p & m & x & r & E & [-> | ->] & _); repeat (destruct p as [|? p]; [discriminate|injection E as _ E]); destruct p; discriminate.
Qed.
Definition a_func : funcname := FuncName [lit "ns"] (lit "f").
Definition a_call : error := Error (FuncFailed a_func (positional_msg ascii_unicode no_floats 2 (POneOf [PArray PString; PNullable (POneOf [PBool; PNumber])]) a_value)) (Some sample).
Definition an_operation : error := Error (BadBinary a_value OpAnd (VBool true)) (Some (EBinary (var "x") OpAnd (var "y"))).
Example a_call_ok : ok a_call.
Proof.
  split; [split; [split; [constructor; [reflexivity|constructor]|reflexivity]|]|].
  - right. eexists _, _, _. split; [exact a_value_ok|]. left. reflexivity.
  - split; [exact readable_sample|]. cbn. repeat split.
Qed.
Example an_operation_ok : ok an_operation.
Proof.
  split; [split; [exact a_value_ok|exact I]|]. split; [|cbn; repeat split]. cbn. repeat first [split | reflexivity | exact I | discriminate | constructor].
  all: apply no_comparison; intros o Ho; cbn in Ho; intuition (subst; assumption).
Qed.
Example a_call_text : shown a_call =
  lit "error calling function `ns::f`: expected argument at position 2 to be of type `array(`string`)` or `nullable(`bool` or `number`)`, got `{
  ""a"" = [
    1,
    null
  ]
  ""b` c"" = ""x` in expression `y""
}` in expression `" ++ expr_str ascii_unicode no_floats sample ++ lit "`".
Proof. vm_compute. reflexivity. Qed.
Example some_texts :
  map (fun e => shown e)
    [Error (UndefinedVar (lit "x")) (Some (EArr [var "x"])); Error (UndefinedFunc a_func) None; Error (Unexpected VNull (lit "a boolean")) (Some (var "y"));
     Error (BadIndex 7) None; Error (BadUnary Not (VStr (lit "s"))) None; Error (NoSuchKey (lit "k")) (Some (var "x")); Error (KeyExists (lit "k")) None;
     Error (BadBinary (VBool true) OpMinus VNull) (Some one)] =
  [lit "undefined variable `x` in expression `[
  x
]`"; lit "undefined function `ns::f`"; lit "unexpected value `null`, expected a boolean in expression `y`"; lit "index out of bounds: 7";
   lit "unary operator `!` is not applicable to `""s""`"; lit "no such key: `k` in expression `x`"; lit "key `k` already exists";
   lit "binary operator `-` is not applicable to `true` and `null` in expression `1`"].
Proof. vm_compute. reflexivity. Qed.
Definition two_errors : errors := [Error (UndefinedVar (lit "x")) (Some (var "x")); Error (BadIndex 7) None].
Example two_errors_ok : Forall ok two_errors /\ Forall (fun e => one_line (shown e)) two_errors.
Proof.
  split.
  - constructor; [split; [reflexivity|split; [|exact I]]|constructor; [split; exact I|constructor]]. cbn. unfold variable. repeat first [split | reflexivity | discriminate].
  - repeat constructor; vm_compute; intuition discriminate.
Qed.
Example two_errors_text : errors_str ascii_unicode no_floats two_errors = lit "2 errors occurred:
- undefined variable `x` in expression `x`
- index out of bounds: 7
".
Proof. vm_compute. reflexivity. Qed.
Example collected : fold_left add_errors [None; Some [Error (BadIndex 1) None]; None; Some two_errors] None = Some (Error (BadIndex 1) None :: two_errors).
Proof. reflexivity. Qed.
Definition a_def : funcdef := FuncDef (fun a => inl (VArr (variadic_args a))) [PString; PNullable (PArray PNumber)] (Some (POneOf [PBool; PString])).
Example a_def_declared : well_declared a_def.
Proof. split; cbn; repeat first [split | constructor | discriminate]. Qed.
Example a_def_misfit : first_misfit a_def [VStr []; VNull; VBool true; VNull] 3 (POneOf [PBool; PString]) VNull.
Proof.
  split; [reflexivity|]. split; [reflexivity|]. split; [cbn; intros [F|[[x F]|[[x F]|[]]]]; discriminate|].
  intros [|[|[|i]]] q w Hi Hw Hq; cbn in Hw, Hq; try lia; injection Hw as <-; injection Hq as <-; cbn; eauto.
Qed.
Example a_def_message : call_msg ascii_unicode no_floats a_def [VStr []; VNull; VBool true; VNull] = inr (lit "expected variadic argument at position 3 to be of type `bool` or `string`, got `null`").
Proof. vm_compute. reflexivity. Qed.

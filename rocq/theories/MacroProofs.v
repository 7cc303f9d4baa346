(** * The construction macros build what is written *)
From Coq Require Import NArith Bool String List Lia.
From Verif Require Import Str PrimModel PrimProofs Ast MacroModel MacroSpec.
From Verif Require MapModel.
Import ListNotations.
Open Scope N_scope.

(** ** [builds] *)
Lemma builds_S {A} (f g : nat -> option A) x : (forall n, f (S n) = g n) -> builds g x -> builds f x.
Proof. intros E (n & H). exists (S n). intros [|m] L; [lia|]. rewrite E. apply H. lia. Qed.
Lemma builds_const {A} (f : nat -> option A) x : (forall n, f (S n) = x) -> builds f x.
Proof. intros E. exists 1%nat. intros [|m] L; [lia|]. apply E. Qed.
Lemma builds_bind {A B} (f : nat -> option A) (g : nat -> A -> option B) x (y : A -> option B) :
  builds f x -> (forall a, x = Some a -> builds (fun n => g n a) (y a)) ->
  builds (fun n => obind (f n) (g n)) (obind x y).
Proof.
  intros (n & H) G. destruct x as [a|].
  - destruct (G a eq_refl) as (k & K). exists (n + k)%nat. intros m L. rewrite H by lia. cbn. apply K. lia.
  - exists n. intros m L. now rewrite H.
Qed.
Lemma builds_map {A B} (f : nat -> option A) (g : A -> B) x : builds f x -> builds (fun n => option_map g (f n)) (option_map g x).
Proof. intros (n & H). exists n. intros m L. now rewrite H. Qed.
Lemma builds_eq {A} (f : nat -> option A) x y : builds f x -> x = y -> builds f y.
Proof. now intros H <-. Qed.

(** ** Inputs *)
Lemma special_dec t : {special t} + {~ special t}.
Proof.
  destruct t as [s|s|s|d l].
  - destruct (list_eq_dec N.eq_dec s (lit "null")) as [->|N1]; [left; now left|].
    destruct (list_eq_dec N.eq_dec s (lit "true")) as [->|N2]; [left; right; now left|].
    destruct (list_eq_dec N.eq_dec s (lit "false")) as [->|N3]; [left; right; right; now left|].
    right. intros [E|[E|[E|(l & [E|E])]]]; congruence.
  - right. intros [E|[E|[E|(l & [E|E])]]]; congruence.
  - right. intros [E|[E|[E|(l & [E|E])]]]; congruence.
  - destruct d; [right; intros [E|[E|[E|(l' & [E|E])]]]; congruence|left|left]; do 3 right; eauto.
Qed.
Lemma seqb_no s t : s <> t -> seqb s t = false.
Proof. intros H. destruct (seqb s t) eqn:E; [|reflexivity]. apply seqb_eq in E. contradiction. Qed.
Lemma word_no {A} (null : A) b s : ~ special (TId s) -> word null b s = None.
Proof.
  intros H. unfold word. rewrite !seqb_no; [reflexivity|..]; intros ->; apply H; unfold special; auto.
Qed.

Section MexprInd.
  Context (P : mexpr -> Prop) (HN : P MNull) (HB : forall b, P (MBool b)) (HR : forall e, P (MRust e))
          (HA : forall l c, Forall P l -> P (MArr l c))
          (HO : forall l, Forall (fun e => P (snd (fst e))) l -> P (MObj l)).
  Fixpoint mexpr_ind' (e : mexpr) : P e.
  Proof.
    destruct e as [|b|e|l c|l]; [exact HN|apply HB|apply HR|apply HA|apply HO].
    - induction l as [|x l IH]; constructor; [apply mexpr_ind'|exact IH].
    - induction l as [|[[k v] c] l IH]; constructor; [apply mexpr_ind'|exact IH].
  Defined.
End MexprInd.

Section Proofs.
  Context (rust_expr : list tt -> option (list tt * list tt)).
  Notation whole := (whole rust_expr).
  Notation rust := (rust rust_expr).
  Notation ok := (ok rust_expr).
  Notation alone := (alone rust_expr).
  Notation ends := (ends rust_expr).
  Notation key_ok := (key_ok rust_expr).

  Lemma whole_frag e : whole e -> expr_frag rust_expr e = Match e [].
  Proof. intros [(t & r & -> & B) E]. cbn. now rewrite B, E. Qed.
  Lemma whole_paren e : whole e -> paren_expr rust_expr e = Some e.
  Proof. intros H. unfold paren_expr. now rewrite whole_frag. Qed.
  Lemma rust_whole e : rust e -> whole e.
  Proof. now intros [[H _] _]. Qed.
  Lemma rust_comma e r : rust e -> expr_frag rust_expr (e ++ COMMA :: r) = Match e (COMMA :: r).
  Proof. intros [[[(t & l & -> & B) _] E] _]. specialize (E r). cbn in *. now rewrite B, E. Qed.
  Lemma rust_cons e : rust e -> exists t r, e = t :: r /\ ~ special t.
  Proof. intros [[[(t & l & -> & B) _] E] N]. eauto. Qed.

  Section Data.
    Context {A K : Type} (null : A) (bool_ : bool -> A) (arr : list A -> A) (obj : list (K * A) -> A)
            (keqb : K -> K -> bool) (other : list tt -> option A)
            (kid : str -> K) (key : list tt -> option K).
    Notation data := (data rust_expr null bool_ arr obj keqb other kid key).
    Notation array := (array rust_expr null bool_ arr obj keqb other kid key).
    Notation object := (object rust_expr null bool_ arr obj keqb other kid key).
    Notation entry := (entry rust_expr null bool_ arr obj keqb other kid key).
    Notation insert := (insert rust_expr null bool_ arr obj keqb other kid key).
    Notation meaning := (meaning null bool_ arr obj keqb other kid key).
    Notation key_meaning := (key_meaning kid key).
    Notation put := (put keqb).

    (** *** Unfolding *)
    Lemma data_other n e : whole e -> (forall t, e = [t] -> ~ special t) -> data (S n) e = other e.
    Proof.
      intros W N. cbn [MacroModel.data].
      assert (O : other_rule rust_expr other e = other e) by (unfold other_rule; now rewrite whole_frag).
      destruct e as [|t [|t' e]]; [exact O| |destruct t as [s|s|s|[] [|]]; exact O].
      destruct t as [s|s|s|[] l]; try exact O.
      - rewrite word_no by now apply N. exact O.
      - exfalso. apply (N _ eq_refl). do 3 right. eauto.
      - exfalso. apply (N _ eq_refl). do 3 right. eauto.
    Qed.
    Definition open (acc : list A) (sep : bool) : Prop := acc = [] \/ sep = true.
    Lemma open_b acc sep : open acc sep -> (match acc with [] => true | _ => false end) || sep = true.
    Proof. intros [-> | ->]; [reflexivity|apply orb_true_r]. Qed.

    Lemma array_special n acc sep t r : open acc sep -> special t ->
      array (S n) acc sep (t :: r) =
      match t with
      | TId s => obind (word null bool_ s) (fun a => array n (acc ++ [a]) false r)
      | _ => obind (data n [t]) (fun a => array n (acc ++ [a]) false r)
      end.
    Proof.
      intros O [-> | [-> | [-> | (l & [-> | ->])]]]; cbn [MacroModel.array]; rewrite (open_b _ _ O); reflexivity.
    Qed.
    Lemma array_comma n acc r : acc <> [] -> array (S n) acc false (COMMA :: r) = array n acc true r.
    Proof. destruct acc; [congruence|reflexivity]. Qed.
    Lemma array_rust n acc sep e : open acc sep -> rust e ->
      array (S n) acc sep e = obind (other e) (fun a => array n (acc ++ [a]) false []).
    Proof.
      intros O R. destruct (rust_cons e R) as (t & r & -> & N). cbn [MacroModel.array]. rewrite (open_b _ _ O).
      rewrite whole_frag by now apply rust_whole.
      destruct t as [s|s|s|[] l]; try reflexivity.
      - now rewrite word_no.
      - exfalso. apply N. do 3 right. eauto.
      - exfalso. apply N. do 3 right. eauto.
    Qed.
    Lemma array_rust_comma n acc sep e r : open acc sep -> rust e ->
      array (S n) acc sep (e ++ COMMA :: r) = obind (other e) (fun a => array n (acc ++ [a]) true r).
    Proof.
      intros O R. destruct (rust_cons e R) as (t & l & -> & N). pose proof (rust_comma _ r R) as F.
      cbn [app] in *. cbn [MacroModel.array]. rewrite (open_b _ _ O), F.
      destruct t as [s|s|s|[] g]; try reflexivity.
      - now rewrite word_no.
      - exfalso. apply N. do 3 right. eauto.
      - exfalso. apply N. do 3 right. eauto.
    Qed.

    (** *** A value which is not a Rust expression is one special token *)
    Lemma special_tokens e : (forall x, e <> MRust x) -> exists t, tokens e = [t] /\ special t.
    Proof.
      intros H. destruct e as [|b|x|l c|l]; cbn [tokens].
      - eexists. split; [reflexivity|now left].
      - eexists. split; [reflexivity|]. destruct b; right; [left|right; left]; reflexivity.
      - now destruct (H x).
      - eexists. split; [reflexivity|]. do 3 right. eauto.
      - eexists. split; [reflexivity|]. do 3 right. eauto.
    Qed.
    Lemma special_word e t s : tokens e = [t] -> (forall x, e <> MRust x) -> t = TId s ->
      word null bool_ s = meaning e.
    Proof.
      intros E N ->. destruct e as [|b|x|l c|l]; cbn [tokens] in E; try discriminate.
      - injection E as <-. reflexivity.
      - destruct b; injection E as <-; reflexivity.
      - now destruct (N x).
    Qed.

    Definition good (e : mexpr) : Prop := ok e -> builds (fun n => data n (tokens e)) (meaning e).

    (** One element of an array. *)
    Lemma array_elem e acc sep : open acc sep -> ok e -> good e ->
      builds (fun n => array n acc sep (tokens e)) (option_map (fun a => acc ++ [a]) (meaning e)).
    Proof.
      intros O W G.
      assert (CASE : (exists x, e = MRust x) \/ forall x, e <> MRust x) by (destruct e; eauto; right; intros; discriminate).
      destruct CASE as [(x & ->)|N].
      - cbn [tokens]. cbn in W. eapply builds_S; [intros n; apply (array_rust n acc sep x O W)|].
        replace (option_map (fun a => acc ++ [a]) (meaning (MRust x))) with (obind (other x) (fun a => Some (acc ++ [a])))
          by (cbn; now destruct (other x)).
        destruct (other x) as [a|]; cbn; [|now exists 0%nat]. apply builds_const. reflexivity.
      - destruct (special_tokens e N) as (t & E & S). specialize (G W). rewrite E in *.
        eapply builds_S; [intros n; apply (array_special n acc sep t [] O S)|].
        replace (option_map (fun a => acc ++ [a]) (meaning e)) with (obind (meaning e) (fun a => Some (acc ++ [a])))
          by now destruct (meaning e).
        destruct t as [s|s|s|d l].
        + rewrite (special_word e (TId s) s E N eq_refl). destruct (meaning e); cbn; [|now exists 0%nat].
          apply builds_const. reflexivity.
        + destruct S as [X|[X|[X|(l & [X|X])]]]; discriminate.
        + destruct S as [X|[X|[X|(l & [X|X])]]]; discriminate.
        + apply builds_bind; [exact G|]. intros a _. apply builds_const. reflexivity.
    Qed.
    Lemma array_elem_comma e acc sep r y : open acc sep -> ok e -> good e ->
      (forall a, builds (fun n => array n (acc ++ [a]) true r) (y a)) ->
      builds (fun n => array n acc sep (tokens e ++ COMMA :: r)) (obind (meaning e) y).
    Proof.
      intros O W G Y.
      assert (CASE : (exists x, e = MRust x) \/ forall x, e <> MRust x) by (destruct e; eauto; right; intros; discriminate).
      destruct CASE as [(x & ->)|N].
      - cbn [tokens]. cbn in W. eapply builds_S; [intros n; apply (array_rust_comma n acc sep x r O W)|].
        cbn [MacroSpec.meaning]. destruct (other x) as [a|]; cbn; [|now exists 0%nat]. apply Y.
      - destruct (special_tokens e N) as (t & E & S). specialize (G W). rewrite E in *. cbn [app].
        assert (COM : forall a, builds (fun n => array n (acc ++ [a]) false (COMMA :: r)) (y a)).
        { intros a. eapply builds_S; [intros n; apply array_comma; now destruct acc|]. apply Y. }
        eapply builds_S; [intros n; apply (array_special n acc sep t _ O S)|].
        destruct t as [s|s|s|d l].
        + rewrite (special_word e (TId s) s E N eq_refl). destruct (meaning e); cbn; [|now exists 0%nat]. apply COM.
        + destruct S as [X|[X|[X|(l & [X|X])]]]; discriminate.
        + destruct S as [X|[X|[X|(l & [X|X])]]]; discriminate.
        + apply builds_bind; [exact G|]. intros a _. apply COM.
    Qed.

    Lemma array_all c l : Forall good l -> Forall ok l -> (c = true -> l <> []) -> forall acc sep, open acc sep ->
      builds (fun n => array n acc sep (between c (map tokens l))) (option_map (app acc) (all_some (map meaning l))).
    Proof.
      induction l as [|x l IH]; intros G W C acc sep O.
      - cbn. apply builds_const. intros n. rewrite app_nil_r. reflexivity.
      - inversion G as [|? ? G1 G2]; subst. inversion W as [|? ? W1 W2]; subst.
        destruct l as [|y l].
        + cbn [map between all_some].
          replace (option_map (app acc) (option_map (fun p => fst p :: snd p) (both (meaning x) (Some []))))
            with (option_map (fun a => acc ++ [a]) (meaning x)) by now destruct (meaning x).
          destruct c; cbn [comma_if].
          * replace (option_map (fun a => acc ++ [a]) (meaning x)) with (obind (meaning x) (fun a => Some (acc ++ [a])))
              by now destruct (meaning x).
            apply (array_elem_comma x acc sep [] _ O W1 G1). intros a. apply builds_const. reflexivity.
          * rewrite app_nil_r. now apply array_elem.
        + change (between c (map tokens (x :: y :: l))) with (tokens x ++ COMMA :: between c (map tokens (y :: l))).
          eapply builds_eq.
          * apply (array_elem_comma x acc sep _ (fun a => option_map (app (acc ++ [a])) (all_some (map meaning (y :: l)))) O W1 G1).
            intros a. apply IH; [exact G2|exact W2|congruence|now right].
          * cbn [map]. cbn [all_some]. destruct (meaning x); [|reflexivity]. cbn [both obind].
            destruct (both (meaning y) (all_some (map meaning l))); [|reflexivity]. cbn. now rewrite <- app_assoc.
    Qed.

    (** *** Objects *)
    Lemma key_step k n o r : key_ok k ->
      object (S n) o (key_tok k :: r) = obind (key_meaning k) (fun k => entry n o k r).
    Proof.
      intros W. destruct k as [s|s|e]; cbn [key_tok MacroModel.object MacroSpec.key_meaning]; [reflexivity..|].
      cbn in W. now rewrite whole_paren.
    Qed.
    Lemma entry_special n o k t r : special t ->
      entry (S n) o k (EQUALS :: t :: r) =
      match t with
      | TId s => obind (word null bool_ s) (fun a => insert n o k a r)
      | _ => obind (data n [t]) (fun a => insert n o k a r)
      end.
    Proof. intros [-> | [-> | [-> | (l & [-> | ->])]]]; reflexivity. Qed.
    Lemma entry_plain n o k t r : ~ special t ->
      entry (S n) o k (EQUALS :: t :: r) =
      match expr_frag rust_expr (t :: r) with
      | Fatal => None
      | Match e (c :: r') => if is_comma c then obind (other e) (fun v => insert n o k v (c :: r'))
                             else obind (data n [t]) (fun v => insert n o k v r)
      | Match _ [] | NoMatch => obind (data n [t]) (fun v => insert n o k v r)
      end.
    Proof.
      intros N. cbn [MacroModel.entry]. change (is_equals EQUALS) with true. cbv iota.
      destruct t as [s|s|s|[] l]; try reflexivity.
      - now rewrite word_no.
      - exfalso. apply N. do 3 right. eauto.
      - exfalso. apply N. do 3 right. eauto.
    Qed.
    Definition rest_of (l : list (mkey * mexpr * bool)) : list tt :=
      flat_map (fun e => match e with (k, v, c) => key_tok k :: EQUALS :: tokens v ++ comma_if c end) l.
    Definition entries (l : list (mkey * mexpr * bool)) : option (list (K * A)) :=
      all_some (map (fun e => match e with (k, v, _) => both (key_meaning k) (meaning v) end) l).
    Lemma rest_not_comma l : match rest_of l with t :: _ => is_comma t = false | [] => True end.
    Proof. destruct l as [|[[[s|s|e] v] c] l]; reflexivity || exact I. Qed.
    Lemma insert_step n o k v c l : insert (S n) o k v (comma_if c ++ rest_of l) = object n (put k v o) (rest_of l).
    Proof.
      destruct c; [reflexivity|]. cbn [comma_if app]. pose proof (rest_not_comma l) as H.
      cbn [MacroModel.insert]. destruct (rest_of l) as [|t r]; [reflexivity|]. now rewrite H.
    Qed.
    Lemma entry_all k v c l o y : ok v -> good v -> ends v c l ->
      (forall a, builds (fun n => object n (put k a o) (rest_of l)) (y a)) ->
      builds (fun n => entry n o k (EQUALS :: tokens v ++ comma_if c ++ rest_of l)) (obind (meaning v) y).
    Proof.
      intros W G E Y.
      assert (INS : forall a, builds (fun n => insert n o k a (comma_if c ++ rest_of l)) (y a)).
      { intros a. eapply builds_S; [intros n; apply insert_step|]. apply Y. }
      assert (CASE : (exists x, v = MRust x) \/ forall x, v <> MRust x) by (destruct v; eauto; right; intros; discriminate).
      destruct CASE as [(x & ->)|N].
      - cbn [tokens]. cbn in W. destruct (rust_cons x W) as (t & r & -> & N).
        destruct c.
        + cbn [comma_if] in *. eapply builds_S.
          { intros n. cbn [app]. rewrite (entry_plain n o k t _ N).
            pose proof (rust_comma _ (rest_of l) W) as F. cbn [app] in F. rewrite F. reflexivity. }
          change (is_comma COMMA) with true. cbv iota. cbn [MacroSpec.meaning].
          destruct (other (t :: r)); cbn; [|now exists 0%nat]. apply INS.
        + destruct E as [E|(t' & E & NX)]; [discriminate|]. injection E as <- ->. cbn [comma_if app] in *.
          assert (D : forall n, entry (S n) o k (EQUALS :: t :: rest_of l) = obind (data n [t]) (fun v => insert n o k v (rest_of l))).
          { intros n. rewrite (entry_plain n o k t _ N).
            destruct l as [|[[k' v'] c'] l]; [change (rest_of []) with (@nil tt); now rewrite (whole_frag [t] (rust_whole _ W))|].
            cbn [rest_of flat_map app expr_frag]. destruct W as [[[(t0 & r0 & E0 & B) _] _] _]. injection E0 as <- _. rewrite B.
            destruct k' as [s|s|e]; [| |contradiction]; cbn [key_tok]; rewrite NX by eauto; reflexivity. }
          eapply builds_S; [exact D|]. apply builds_bind; [|intros a _; apply INS].
          apply builds_const. intros n. cbn [MacroSpec.meaning]. apply data_other; [now apply rust_whole|].
          intros t0 E0. now injection E0 as <-.
      - destruct (special_tokens v N) as (t & T & S). specialize (G W). rewrite T in *. cbn [app].
        eapply builds_S; [intros n; apply (entry_special n o k t _ S)|].
        destruct t as [s|s|s|d g].
        + rewrite (special_word v (TId s) s T N eq_refl). destruct (meaning v); cbn; [|now exists 0%nat]. apply INS.
        + destruct S as [X|[X|[X|(g & [X|X])]]]; discriminate.
        + destruct S as [X|[X|[X|(g & [X|X])]]]; discriminate.
        + apply builds_bind; [exact G|]. intros a _. apply INS.
    Qed.
    Fixpoint obj_ok (l : list (mkey * mexpr * bool)) : Prop :=
      match l with [] => True | (k, v, c) :: l => key_ok k /\ ok v /\ ends v c l /\ obj_ok l end.
    Lemma object_all l : Forall (fun e => good (snd (fst e))) l -> obj_ok l -> forall o,
      builds (fun n => object n o (rest_of l)) (option_map (fun es => MapModel.extend keqb es o) (entries l)).
    Proof.
      induction l as [|[[k v] c] l IH]; intros G W o.
      - apply builds_const. reflexivity.
      - destruct W as (WK & WV & WE & WL). inversion G as [|? ? G1 G2]; subst. cbn [fst snd] in G1.
        change (rest_of ((k, v, c) :: l)) with (key_tok k :: EQUALS :: (tokens v ++ comma_if c) ++ rest_of l).
        rewrite <- app_assoc.
        eapply builds_S; [intros n; apply (key_step k n o _ WK)|]. unfold entries. cbn [map all_some].
        destruct (key_meaning k) as [k'|]; [|now exists 0%nat]. cbn [obind both].
        eapply builds_eq.
        + apply (entry_all k' v c l o (fun a => option_map (fun es => MapModel.extend keqb es (put k' a o)) (entries l)) WV G1 WE).
          intros a. now apply IH.
        + unfold entries. destruct (meaning v); [|reflexivity]. cbn [obind both].
          destruct (all_some _); reflexivity.
    Qed.

    Lemma data_arr l c : (c = true -> l <> []) -> forall n,
      data (S n) (tokens (MArr l c)) = option_map arr (match l with [] => Some [] | _ => array n [] false (between c (map tokens l)) end) \/
      (exists x, l = [x] /\ tokens x = [] /\ c = false).
    Proof.
      intros C n. cbn [tokens]. destruct l as [|x l].
      - left. destruct c; [now destruct (C eq_refl)|]. reflexivity.
      - cbn [MacroModel.data]. destruct (between c (map tokens (x :: l))) eqn:E; [|now left].
        destruct l as [|y l]; cbn [map between] in E.
        + apply app_eq_nil in E. destruct E as [E1 E2]. destruct c; [discriminate|]. right. eauto.
        + apply app_eq_nil in E. destruct E as [_ E]. discriminate.
    Qed.
    Lemma ok_tokens e : ok e -> tokens e <> [].
    Proof. destruct e; cbn [tokens]; try discriminate. intros H. cbn in H. destruct (rust_cons _ H) as (t & r & -> & _). discriminate. Qed.
    Lemma ok_all l : (fix all l := match l with [] => True | x :: l => ok x /\ all l end) l -> Forall ok l.
    Proof. induction l as [|x l IH]; [constructor|]. intros [H1 H2]. constructor; [exact H1|now apply IH]. Qed.

    Theorem data_builds e : good e.
    Proof.
      induction e as [|b|e|l c IH|l IH] using mexpr_ind'; intros W.
      - apply builds_const. reflexivity.
      - apply builds_const. intros n. destruct b; reflexivity.
      - cbn in W. cbn [tokens]. apply builds_const. intros n. apply data_other; [now apply rust_whole|].
        intros t ->. destruct (rust_cons [t] W) as (t' & r & E & N). now injection E as <- _.
      - destruct W as [C W]. apply ok_all in W.
        eapply builds_S.
        { intros n. destruct (data_arr l c C n) as [E|(x & -> & X & _)]; [exact E|].
          inversion W; subst. now destruct (ok_tokens x). }
        cbn [MacroSpec.meaning]. apply builds_map. destruct l as [|x l]; [now exists 0%nat|].
        eapply builds_eq; [apply (array_all c (x :: l) IH W C [] false); now left|].
        now destruct (all_some (map meaning (x :: l))).
      - assert (W' : obj_ok l) by exact W. clear W.
        destruct l as [|x l]; [now apply builds_const|].
        cbn [MacroSpec.meaning]. eapply builds_S with (g := fun n => option_map obj (object n [] (rest_of (x :: l)))).
        { intros n. cbn [tokens]. fold (rest_of (x :: l)). destruct x as [[k v] c]. reflexivity. }
        eapply builds_eq; [apply builds_map; apply (object_all (x :: l) IH W' [])|].
        unfold entries, MapModel.from_iter. now destruct (all_some _).
    Qed.

    Theorem input_builds e : ok_input rust_expr e -> builds (fun n => data n (tokens e)) (meaning e).
    Proof.
      destruct e as [|b|e|l c|l]; try apply data_builds. intros [W N]. apply builds_const. intros n. now apply data_other.
    Qed.
  End Data.

  (** ** Structures *)
  Context (to_expression : list tt -> option expr) (to_string : list tt -> option str)
          (u : unicode) (to_ident : list tt -> option str).
  Notation expression_macro := (expression_macro rust_expr to_expression).
  Notation name_of := (name_of rust_expr u to_ident).
  Notation label := (label rust_expr to_string).
  Notation attribute_macro := (attribute_macro rust_expr to_expression u to_ident).
  Notation body_macro := (body_macro rust_expr to_expression to_string u to_ident).
  Notation structures := (structures rust_expr to_expression to_string u to_ident).
  Notation block := (block rust_expr to_expression to_string u to_ident).
  Notation block_rest := (block_rest rust_expr to_expression to_string u to_ident).
  Notation block_macro := (block_macro rust_expr to_expression to_string u to_ident).
  Notation structure_macro := (structure_macro rust_expr to_expression to_string u to_ident).
  Notation expr_meaning := (expr_meaning to_expression).
  Notation name_meaning := (name_meaning to_ident).
  Notation label_meaning := (label_meaning to_string).
  Notation struct_meaning := (struct_meaning to_expression to_string to_ident).
  Notation name_ok := (name_ok rust_expr u).
  Notation label_ok := (label_ok rust_expr).
  Notation struct_ok := (struct_ok rust_expr u).

  Lemma expression_builds e : ok_input rust_expr e -> builds (fun n => expression_macro n (tokens e)) (expr_meaning e).
  Proof. apply input_builds. Qed.
  Lemma ok_is_input e : ok e -> ok_input rust_expr e.
  Proof.
    destruct e; auto. cbn. intros R. split; [now apply rust_whole|]. intros t ->.
    destruct (rust_cons [t] R) as (t' & r & E & N). now injection E as <- _.
  Qed.
  Lemma name_step k : name_ok k -> name_of (name_tok k) = name_meaning k.
  Proof.
    destruct k as [s|e]; cbn; intros W; [now rewrite sanitized_id|]. now rewrite whole_paren.
  Qed.
  Lemma name_not_brace k r l : name_tok k :: r <> [TGroup Brace l].
  Proof. destruct k; discriminate. Qed.
  Lemma tokens_not_nil e : ok_input rust_expr e -> tokens e <> [].
  Proof. destruct e; cbn [tokens]; try discriminate. intros [[(t & r & -> & _) _] _]. discriminate. Qed.

  Lemma attribute_builds k v : name_ok k -> ok_input rust_expr v ->
    builds (fun n => attribute_macro n (name_tok k :: EQUALS :: tokens v)) (struct_meaning (MAttr k v)).
  Proof.
    intros WK WV. cbn [MacroSpec.struct_meaning]. rewrite <- (name_step k WK).
    eapply builds_S with (g := fun n => obind (name_of (name_tok k)) (fun k => option_map (SAttribute k) (expression_macro n (tokens v)))).
    { intros n. destruct k; reflexivity. }
    destruct (name_of (name_tok k)) as [s|]; cbn [both obind option_map]; [|now exists 0%nat].
    eapply builds_eq; [apply builds_map; now apply expression_builds|]. now destruct (expr_meaning v).
  Qed.
  Lemma structure_attribute k v : name_ok k -> ok_input rust_expr v ->
    builds (fun n => structure_macro n (name_tok k :: EQUALS :: tokens v)) (struct_meaning (MAttr k v)).
  Proof.
    intros WK WV. eapply builds_S; [|now apply attribute_builds].
    intros n. pose proof (tokens_not_nil v WV). cbn [MacroModel.structure_macro].
    destruct (tokens v) as [|t r]; [congruence|]. destruct k; reflexivity.
  Qed.

  Lemma label_step l r : label_ok l -> label (label_tok l :: r) = Some (label_meaning l, r).
  Proof. destruct l as [s|s|e]; cbn; intros W; [reflexivity..|]. now rewrite whole_paren. Qed.
  Lemma label_brace l r b : label_tok l :: r <> [TGroup Brace b].
  Proof. destruct l; discriminate. Qed.

  Lemma block_labels ls b more acc y : Forall label_ok ls -> forall i ls0,
    (forall ls', builds (fun n => block n acc i ls' (TGroup Brace b :: more)) (y ls')) ->
    builds (fun n => block n acc i ls0 (map label_tok ls ++ TGroup Brace b :: more))
           (obind (all_some (map label_meaning ls)) (fun l => y (ls0 ++ l))).
  Proof.
    induction ls as [|l ls IH]; intros W i ls0 Y.
    - cbn. rewrite app_nil_r. apply Y.
    - inversion W as [|? ? W1 W2]; subst. cbn [map app all_some].
      eapply builds_S with (g := fun n => obind (label_meaning l) (fun l => block n acc i (ls0 ++ [l]) (map label_tok ls ++ TGroup Brace b :: more))).
      { intros n. pose proof (label_step l (map label_tok ls ++ TGroup Brace b :: more) W1) as L.
        cbn [MacroModel.block]. rewrite L. destruct l; reflexivity. }
      destruct (label_meaning l) as [x|]; [|now exists 0%nat]. cbn [obind both].
      eapply builds_eq; [apply (IH W2 i (ls0 ++ [x]) Y)|].
      destruct (all_some (map label_meaning ls)); cbn; [|reflexivity]. now rewrite <- app_assoc.
  Qed.
  Lemma block_rest_labels ls b y : Forall label_ok ls -> forall i ls0,
    (forall ls', builds (fun n => block_rest n i ls' [TGroup Brace b]) (y ls')) ->
    builds (fun n => block_rest n i ls0 (map label_tok ls ++ [TGroup Brace b]))
           (obind (all_some (map label_meaning ls)) (fun l => y (ls0 ++ l))).
  Proof.
    induction ls as [|l ls IH]; intros W i ls0 Y.
    - cbn. rewrite app_nil_r. apply Y.
    - inversion W as [|? ? W1 W2]; subst. cbn [map app all_some].
      eapply builds_S with (g := fun n => obind (label_meaning l) (fun l => block_rest n i (ls0 ++ [l]) (map label_tok ls ++ [TGroup Brace b]))).
      { intros n. pose proof (label_step l (map label_tok ls ++ [TGroup Brace b]) W1) as L.
        cbn [MacroModel.block_rest]. rewrite L. destruct l; reflexivity. }
      destruct (label_meaning l) as [x|]; [|now exists 0%nat]. cbn [obind both].
      eapply builds_eq; [apply (IH W2 i (ls0 ++ [x]) Y)|].
      destruct (all_some (map label_meaning ls)); cbn; [|reflexivity]. now rewrite <- app_assoc.
  Qed.

  Section MstructInd.
    Context (P : mstruct -> Prop) (HA : forall k v, P (MAttr k v)) (HB : forall k ls b, Forall P b -> P (MBlock k ls b)).
    Fixpoint mstruct_ind' (s : mstruct) : P s.
    Proof.
      destruct s as [k v|k ls b]; [apply HA|apply HB]. induction b; constructor; [apply mstruct_ind'|assumption].
    Defined.
  End MstructInd.

  (** A structure in front of others. *)
  Definition sgood (s : mstruct) : Prop := struct_ok s -> forall acc more y,
    (forall x, builds (fun n => structures n (acc ++ [x]) more) (y x)) ->
    builds (fun n => structures n acc (struct_tokens s ++ more)) (obind (struct_meaning s) y).
  Lemma structures_all b : Forall sgood b -> Forall struct_ok b -> forall acc,
    builds (fun n => structures n acc (body_tokens b)) (option_map (app acc) (all_some (map struct_meaning b))).
  Proof.
    induction b as [|s b IH]; intros G W acc.
    - apply builds_const. intros n. cbn. now rewrite app_nil_r.
    - inversion G as [|? ? G1 G2]; subst. inversion W as [|? ? W1 W2]; subst.
      change (body_tokens (s :: b)) with (struct_tokens s ++ body_tokens b).
      eapply builds_eq; [apply (G1 W1 acc _ (fun x => option_map (app (acc ++ [x])) (all_some (map struct_meaning b)))); intros x; now apply IH|].
      cbn [map all_some]. destruct (struct_meaning s); [|reflexivity]. cbn [obind both].
      destruct (all_some (map struct_meaning b)); cbn; [|reflexivity]. now rewrite <- app_assoc.
  Qed.
  Lemma body_start b l : body_tokens b <> [TGroup Brace l].
  Proof. destruct b as [|[k v|k ls b'] b]; cbn; [discriminate|destruct k; discriminate|destruct k; discriminate]. Qed.
  Lemma body_step b : Forall sgood b -> Forall struct_ok b ->
    builds (fun n => body_macro n (body_tokens b)) (all_some (map struct_meaning b)).
  Proof.
    intros G W. eapply builds_S with (g := fun n => structures n [] (body_tokens b)).
    { intros n. cbn [MacroModel.body_macro]. pose proof (body_start b) as N.
      destruct (body_tokens b) as [|[s|s|s|[] l] [|t r]]; try reflexivity. now destruct (N l). }
    eapply builds_eq; [now apply structures_all|]. now destruct (all_some (map struct_meaning b)).
  Qed.
  Lemma struct_all l : (fix all l := match l with [] => True | x :: l => struct_ok x /\ all l end) l -> Forall struct_ok l.
  Proof. induction l as [|x l IH]; [constructor|]. intros [H1 H2]. constructor; [exact H1|now apply IH]. Qed.
  Lemma single_tokens v : ok v -> single v -> exists t, tokens v = [t].
  Proof. destruct v; cbn; eauto. Qed.
  (** The first token behind a block identifier. *)
  Lemma labels_first ls b more : exists q r, map label_tok ls ++ TGroup Brace b :: more = q :: r /\ is_equals q = false.
  Proof. destruct ls as [|[s|s|e] ls]; cbn; eauto. Qed.

  Theorem struct_good s : sgood s.
  Proof.
    induction s as [k v|k ls b IH] using mstruct_ind'; intros W acc more y Y.
    - destruct W as (WK & WV & WS). destruct (single_tokens v WV WS) as (t & T).
      pose proof (structure_attribute k v WK (ok_is_input v WV)) as SA.
      cbn [struct_tokens]. rewrite T in *. cbn [app].
      eapply builds_S with (g := fun n => obind (structure_macro n [name_tok k; EQUALS; t]) (fun s => structures n (acc ++ [s]) more)).
      { intros n. reflexivity. }
      apply builds_bind; [exact SA|]. intros a _. apply Y.
    - destruct W as (WK & WL & WB). apply struct_all in WB.
      cbn [struct_tokens]. rewrite <- app_comm_cons, <- app_assoc. cbn [app].
      fold (body_tokens b).
      eapply builds_S with (g := fun n => obind (name_meaning k) (fun i => block n acc i [] (map label_tok ls ++ TGroup Brace (body_tokens b) :: more))).
      { intros n. destruct (labels_first ls (body_tokens b) more) as (q & r & E & Q). rewrite E.
        cbn [MacroModel.structures]. rewrite (name_step k WK). destruct r as [|t r]; [reflexivity|]. now rewrite Q. }
      cbn [MacroSpec.struct_meaning]. destruct (name_meaning k) as [i|]; [|now exists 0%nat]. cbn [obind both].
      eapply builds_eq.
      + apply (block_labels ls (body_tokens b) more acc (fun ls' => obind (all_some (map struct_meaning b)) (fun b => y (SBlk i ls' b))) WL i []).
        intros ls'. eapply builds_S with (g := fun n => obind (body_macro n (body_tokens b)) (fun b => structures n (acc ++ [SBlk i ls' b]) more)).
        { intros n. reflexivity. }
        apply builds_bind; [now apply body_step|]. intros b' _. apply Y.
      + destruct (all_some (map label_meaning ls)); [|reflexivity]. cbn.
        destruct (all_some (map struct_meaning b)); reflexivity.
  Qed.

  Lemma all_good b : Forall sgood b.
  Proof. apply Forall_forall. intros s _. apply struct_good. Qed.
  Theorem body_builds b : body_ok rust_expr u b ->
    builds (fun n => body_macro n (body_tokens b)) (body_meaning to_expression to_string to_ident b).
  Proof. intros W. apply body_step; [apply all_good|exact W]. Qed.

  Theorem block_builds k ls b : struct_ok (MBlock k ls b) ->
    builds (fun n => block_macro n (struct_tokens (MBlock k ls b))) (struct_meaning (MBlock k ls b)).
  Proof.
    intros (WK & WL & WB). apply struct_all in WB. cbn [struct_tokens]. fold (body_tokens b).
    eapply builds_S with (g := fun n => obind (name_meaning k) (fun i => block_rest n i [] (map label_tok ls ++ [TGroup Brace (body_tokens b)]))).
    { intros n. cbn [MacroModel.block_macro]. rewrite (name_step k WK). destruct k; reflexivity. }
    cbn [MacroSpec.struct_meaning]. destruct (name_meaning k) as [i|]; [|now exists 0%nat]. cbn [obind both].
    eapply builds_eq.
    - apply (block_rest_labels ls (body_tokens b) (fun ls' => option_map (SBlk i ls') (all_some (map struct_meaning b))) WL i []).
      intros ls'. eapply builds_S with (g := fun n => option_map (SBlk i ls') (body_macro n (body_tokens b))).
      { intros n. reflexivity. }
      apply builds_map. now apply body_builds.
    - destruct (all_some (map label_meaning ls)); [|reflexivity]. cbn.
      destruct (all_some (map struct_meaning b)); reflexivity.
  Qed.
  Theorem structure_builds s : match s with MAttr k v => name_ok k /\ ok_input rust_expr v | MBlock _ _ _ => struct_ok s end ->
    builds (fun n => structure_macro n (struct_tokens s)) (struct_meaning s).
  Proof.
    destruct s as [k v|k ls b]; intros W.
    - destruct W. now apply structure_attribute.
    - eapply builds_S; [|now apply (block_builds k ls b)]. intros n. cbn [struct_tokens].
      destruct (labels_first ls (flat_map struct_tokens b) []) as (q & r & E & Q). rewrite E.
      cbn [MacroModel.structure_macro]. destruct k; cbn [name_tok]; (destruct r as [|t r]; [reflexivity|]; now rewrite Q).
  Qed.

  (** *** In braces *)
  Lemma body_braces toks x : builds (fun n => body_macro n toks) x -> builds (fun n => body_macro n [TGroup Brace toks]) x.
  Proof. apply builds_S. reflexivity. Qed.
  Lemma structure_braces toks x : builds (fun n => structure_macro n toks) x -> builds (fun n => structure_macro n [TGroup Brace toks]) x.
  Proof. apply builds_S. reflexivity. Qed.
  Lemma block_braces toks x : builds (fun n => block_macro n toks) x -> builds (fun n => block_macro n [TGroup Brace toks]) x.
  Proof. apply builds_S. reflexivity. Qed.
  Lemma attribute_braces toks x : builds (fun n => attribute_macro n toks) x -> builds (fun n => attribute_macro n [TGroup Brace toks]) x.
  Proof. apply builds_S. reflexivity. Qed.
End Proofs.

(** * UTF-8, as used by Rust's [str]

    [encode] is [char::encode_utf8]; [decode] is [std::str::from_utf8] followed by [chars]: it fails on
    every byte sequence that is not well-formed (Unicode 15.0, table 3-7). *)
From Coq Require Import NArith ZArith Bool List Lia.
From Verif Require Import Str.
Import ListNotations.
Open Scope N_scope.

Definition byte := N.

(** A [char]: a Unicode scalar value. *)
Definition scalar (c : N) : bool := (c <? 55296) || ((57344 <=? c) && (c <? 1114112)).

Definition encode_char (c : N) : list N :=
  if c <? 128 then [c]
  else if c <? 2048 then [192 + c / 64; 128 + c mod 64]
  else if c <? 65536 then [224 + c / 4096; 128 + (c / 64) mod 64; 128 + c mod 64]
  else [240 + c / 262144; 128 + (c / 4096) mod 64; 128 + (c / 64) mod 64; 128 + c mod 64].

Definition encode (s : str) : list N := concat (map encode_char s).

Definition within (lo hi b : N) : bool := (lo <=? b) && (b <=? hi).
Definition cont (b : N) : bool := within 128 191 b.

Fixpoint decode (b : list N) : option str :=
  match b with
  | [] => Some []
  | b0 :: r0 =>
      if b0 <? 128 then option_map (cons b0) (decode r0)
      else if within 194 223 b0 then
        match r0 with
        | b1 :: r =>
            if cont b1 then option_map (cons ((b0 - 192) * 64 + (b1 - 128))) (decode r) else None
        | _ => None
        end
      else if within 224 239 b0 then
        match r0 with
        | b1 :: b2 :: r =>
            if (if b0 =? 224 then within 160 191 b1
                else if b0 =? 237 then within 128 159 b1 else cont b1) && cont b2
            then option_map (cons ((b0 - 224) * 4096 + (b1 - 128) * 64 + (b2 - 128))) (decode r)
            else None
        | _ => None
        end
      else if within 240 244 b0 then
        match r0 with
        | b1 :: b2 :: b3 :: r =>
            if (if b0 =? 240 then within 144 191 b1
                else if b0 =? 244 then within 128 143 b1 else cont b1) && cont b2 && cont b3
            then option_map (cons ((b0 - 240) * 262144 + (b1 - 128) * 4096 + (b2 - 128) * 64 + (b3 - 128))) (decode r)
            else None
        | _ => None
        end
      else None
  end.

Lemma encode_app a b : encode (a ++ b) = encode a ++ encode b.
Proof. unfold encode. rewrite map_app, concat_app. reflexivity. Qed.
Lemma encode_cons c s : encode (c :: s) = encode_char c ++ encode s.
Proof. reflexivity. Qed.

Lemma div_bounds c d : 0 < d -> d * (c / d) <= c < d * (c / d) + d.
Proof. intros H. assert (d <> 0) as Hd by lia. pose proof (N.div_mod c d Hd). pose proof (N.mod_lt c d Hd).
  revert H0 H1. generalize (c / d) (c mod d). intros q r H0 H1. nia. Qed.

Ltac decide_cmp :=
  match goal with
  | |- context [?a <? ?b] => first [rewrite (proj2 (N.ltb_lt a b)) by lia | rewrite (proj2 (N.ltb_ge a b)) by lia]
  | |- context [?a <=? ?b] => first [rewrite (proj2 (N.leb_le a b)) by lia | rewrite (proj2 (N.leb_gt a b)) by lia]
  end; cbn [andb].
Lemma decode_char c r : scalar c = true -> decode (encode_char c ++ r) = option_map (cons c) (decode r).
Proof.
  unfold scalar, encode_char. intros H.
  pose proof (div_bounds c 64 ltac:(lia)). pose proof (div_bounds c 4096 ltac:(lia)). pose proof (div_bounds c 262144 ltac:(lia)).
  pose proof (N.mod_lt c 64 ltac:(lia)). pose proof (N.mod_lt (c / 64) 64 ltac:(lia)). pose proof (N.mod_lt (c / 4096) 64 ltac:(lia)).
  pose proof (N.div_mod c 64 ltac:(lia)). pose proof (N.div_mod (c / 64) 64 ltac:(lia)). pose proof (N.div_mod (c / 4096) 64 ltac:(lia)).
  assert (c / 64 / 64 = c / 4096) as E1 by (rewrite N.div_div by lia; reflexivity).
  assert (c / 4096 / 64 = c / 262144) as E2 by (rewrite N.div_div by lia; reflexivity).
  rewrite E1, E2 in *.
  clear E1 E2. revert H0 H1 H2 H3 H4 H5 H6 H7 H8.
  generalize (c / 64) ((c / 64) mod 64) (c / 4096) ((c / 4096) mod 64) (c / 262144) (c mod 64).
  intros q1 m1 q2 m2 q3 m0 H0 H1 H2 H3 H4 H5 H6 H7 H8.
  destruct (N.ltb_spec c 128) as [K1|K1].
  - cbn [app decode]. destruct (N.ltb_spec c 128); [reflexivity|lia].
  - destruct (N.ltb_spec c 2048) as [K2|K2]; [|destruct (N.ltb_spec c 65536) as [K3|K3]].
    + cbn [app decode]. unfold within, cont, within.
      repeat decide_cmp;
      cbn [andb]; f_equal; f_equal; lia.
    + cbn [app decode]. unfold within, cont, within.
      assert (Hs : c < 55296 \/ 57344 <= c).
      { apply orb_true_iff in H. rewrite N.ltb_lt, andb_true_iff, N.leb_le in H. lia. }
      destruct (N.eqb_spec (224 + q2) 224) as [E3|E3]; [|destruct (N.eqb_spec (224 + q2) 237) as [E4|E4]];
      repeat decide_cmp;
      cbn [andb]; f_equal; f_equal; lia.
    + cbn [app decode]. unfold within, cont, within.
      assert (Hs : c < 1114112).
      { apply orb_true_iff in H. rewrite N.ltb_lt, andb_true_iff, N.leb_le, N.ltb_lt in H. lia. }
      destruct (N.eqb_spec (240 + q3) 240) as [E3|E3]; [|destruct (N.eqb_spec (240 + q3) 244) as [E4|E4]];
      repeat decide_cmp;
      cbn [andb]; f_equal; f_equal; lia.
Qed.
Lemma decode_encode_app s r : forallb scalar s = true -> decode (encode s ++ r) = option_map (app s) (decode r).
Proof.
  induction s as [|c s IH]; intros H.
  - cbn. destruct (decode r); reflexivity.
  - cbn [forallb] in H. apply andb_true_iff in H. destruct H as [Hc Hs].
    rewrite encode_cons, <- app_assoc, decode_char by exact Hc. rewrite IH by exact Hs.
    destruct (decode r); reflexivity.
Qed.
Lemma decode_encode s : forallb scalar s = true -> decode (encode s) = Some s.
Proof.
  intros H. rewrite <- (app_nil_r (encode s)), decode_encode_app by exact H. cbn. rewrite app_nil_r. reflexivity.
Qed.

(** Bytes of multi-byte characters are at least 128. *)
Lemma encode_char_high c b : 128 <= c -> In b (encode_char c) -> 128 <= b.
Proof.
  unfold encode_char. intros H. destruct (N.ltb_spec c 128); [lia|].
  destruct (c <? 2048); [|destruct (c <? 65536)]; intros Hb; cbn [In] in Hb;
    repeat (destruct Hb as [Hb|Hb]); try contradiction; subst b; apply N.le_trans with (2 := N.le_add_r _ _); lia.
Qed.
Lemma encode_char_ascii c : c < 128 -> encode_char c = [c].
Proof. intros H. unfold encode_char. destruct (N.ltb_spec c 128); [reflexivity|lia]. Qed.
Lemma encode_char_nonempty c : encode_char c <> [].
Proof. unfold encode_char. destruct (c <? 128), (c <? 2048), (c <? 65536); discriminate. Qed.

(** The first byte alone of a multi-byte character is not valid. *)
Lemma decode_lead c b r : 128 <= c -> encode_char c = b :: r -> decode [b] = None.
Proof.
  intros H E. assert (128 <= b) as Hb by (apply (encode_char_high c b H); rewrite E; left; reflexivity).
  cbn [decode]. destruct (N.ltb_spec b 128); [lia|].
  destruct (within 194 223 b); [reflexivity|]. destruct (within 224 239 b); [reflexivity|].
  destruct (within 240 244 b); reflexivity.
Qed.

(** * C14: locations of parse errors *)
From Coq Require Import NArith Arith Bool String List Lia.
From Verif Require Import Res Str Utf8 LocModel LocSpec LocProofs.
Import ListNotations.
Open Scope nat_scope.

(** An error at an ASCII character [c]: line, column, offset and source line are exact, whatever the
    characters before it. *)
Theorem C14_location : forall (before : str) (c : chr) (after l r : str),
  forallb scalar (before ++ c :: after) = true -> (c < 128)%N ->
  line_start before l -> line_end (c :: after) r ->
  locate_error (encode (before ++ c :: after)) (length (encode before)) =
  Done (encode (l ++ r),
        {| loc_line := line_number before; loc_column := 1 + length l; loc_offset := length (encode before) |}).
Proof.
  intros before c after l r Hs Hc Hl Hr. rewrite (locate_char before c after l r Hs Hl Hr).
  destruct (N.ltb_spec c 128); [reflexivity|lia].
Qed.
Print Assumptions C14_location.
(** "a\n\u{e4}b = ?\nc", error at the question mark. *)
Example C14_location_example :
  let before := [97; 10; 228; 98; 32; 61; 32]%N in
  line_start before [228; 98; 32; 61; 32]%N /\ line_end [63; 10; 99]%N [63]%N /\
  locate_error (encode (before ++ [63; 10; 99]%N)) (length (encode before)) =
  Done (encode [228; 98; 32; 61; 32; 63]%N, {| loc_line := 2; loc_column := 6; loc_offset := 8 |}).
Proof.
  split; [|split].
  - split; [vm_compute; intuition discriminate|]. right. exists [97%N]. reflexivity.
  - split; [vm_compute; intuition discriminate|]. right. exists [99%N]. reflexivity.
  - vm_compute. reflexivity.
Qed.

(** The line number, the source line and the offset are exact at every character. *)
Theorem C14_line : forall (before : str) (c : chr) (after l r : str),
  forallb scalar (before ++ c :: after) = true ->
  line_start before l -> line_end (c :: after) r ->
  exists column,
    locate_error (encode (before ++ c :: after)) (length (encode before)) =
    Done (encode (l ++ r),
          {| loc_line := line_number before; loc_column := column; loc_offset := length (encode before) |}).
Proof.
  intros before c after l r Hs Hl Hr. rewrite (locate_char before c after l r Hs Hl Hr). eexists. reflexivity.
Qed.
Print Assumptions C14_line.

(** The column is wrong when the error is at a multi-byte character after another one: bytes are
    counted, here in "\u{e4}\u{e4}\u{e4}" at the third character. *)
Theorem C14_multibyte_column_refuted :
  exists before c after l r, forallb scalar (before ++ c :: after) = true
    /\ line_start before l /\ line_end (c :: after) r
    /\ forall text loc, locate_error (encode (before ++ c :: after)) (length (encode before)) = Done (text, loc) ->
         1 + length l = 3 /\ loc_column loc = 5.
Proof.
  exists [228; 228]%N, 228%N, [], [228; 228]%N, [228]%N. split; [reflexivity|]. split; [|split].
  - split; [vm_compute; intuition discriminate|]. left. reflexivity.
  - split; [vm_compute; intuition discriminate|]. left. reflexivity.
  - intros text loc H. vm_compute in H. injection H as <- <-. split; reflexivity.
Qed.
Print Assumptions C14_multibyte_column_refuted.

(** An error at the end of an input whose last line is not empty. *)
Theorem C14_end_of_input : forall (before l : str),
  forallb scalar before = true -> line_start before l -> l <> [] ->
  exists offset,
    locate_error (encode before) (length (encode before)) =
    Done (encode l, {| loc_line := line_number before; loc_column := 1 + length l; loc_offset := offset |}).
Proof.
  intros before l Hs Hl Hn. eexists. apply locate_eof; auto.
  intros ->. destruct Hl as [_ [H|[a H]]]; [congruence|]. destruct a; discriminate.
Qed.
Print Assumptions C14_end_of_input.
Example C14_end_of_input_example :
  line_start (lit "a" ++ 10%N :: lit "b =") (lit "b =") /\
  locate_error (encode (lit "a" ++ 10%N :: lit "b =")) 5 =
  Done (lit "b =", {| loc_line := 2; loc_column := 4; loc_offset := 4 |}).
Proof.
  split; [|vm_compute; reflexivity]. split; [vm_compute; intuition discriminate|]. right. exists (lit "a"). reflexivity.
Qed.

(** At the end of an input that ends with a newline, the error is located on the line before: in
    "a = {\n" on line 1, column 7, although the position is line 2, column 1.  The reported offset is
    that of the last byte. *)
Theorem C14_end_after_newline_refuted :
  exists before, line_start before [] /\ line_number before = 2 /\
    locate_error (encode before) (length (encode before)) =
    Done (lit "a = {", {| loc_line := 1; loc_column := 7; loc_offset := 5 |}).
Proof.
  exists (lit "a = {" ++ [10%N]). split; [|split; vm_compute; reflexivity].
  split; [intros []|]. right. exists (lit "a = {"). reflexivity.
Qed.
Print Assumptions C14_end_after_newline_refuted.

(** Computing the location never panics, for any bytes and any offset. *)
Theorem C14_never_panics : forall (input : list N) (offset : nat), locate_error input offset <> Panic.
Proof. intros input off H. destruct (locate_total input off) as [r Hr]. congruence. Qed.
Print Assumptions C14_never_panics.

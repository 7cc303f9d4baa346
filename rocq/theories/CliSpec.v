(** * What a bulk conversion is expected to return

    Sequentially, and without threads. *)
From Coq Require Import Bool String List.
From Verif Require Import Str NumberModel PrimModel Ast ParseBase DeModel CliModel.
Import ListNotations.

Section Spec.
  Context {A B E : Type} (f : A -> pres B E).
  Definition succeeds (x : A) : Prop := exists y, f x = POk y.
  Definition fails (x : A) : Prop := exists e, f x = PErr e.
  Definition crashes (x : A) : Prop := f x = PPanic.
  (** The results of the elements that can be processed, in order. *)
  Definition ok_results (l : list A) : list B := flat_map (fun x => match f x with POk y => [y] | _ => [] end) l.
  Definition failing (l : list A) : list A := filter (fun x => match f x with PErr _ => true | _ => false end) l.
End Spec.

(** The elements of a list without the later occurrences. *)
Fixpoint firsts (l : list str) : list str :=
  match l with [] => [] | x :: l => x :: filter (fun y => negb (seqb y x)) (firsts l) end.

(** ** In terms of files *)
Section Files.
  Context (u : unicode) (b : build) (pf : str -> f64) (sf : f64 -> str) (n : nat) (read : str -> option str) (a : args).
  (** What converting one file by itself gives. *)
  Definition one (p : str) : outcome := read_hcl u b pf sf n (a_simplify a) (read p).
  Definition convertible (p : str) : Prop := exists v, one p = OOk v.
  Definition never_crashes (l : list str) : Prop := forall p, In p l -> one p = OErr \/ convertible p.
  (** The value of each file that can be converted, in the order of the paths. *)
  Definition values (l : list str) : list value := flat_map (fun p => match one p with OOk v => [v] | _ => [] end) l.
  (** The same keyed by path: one entry for each path, where it first occurs. *)
  Definition entries (l : list str) : list (str * value) :=
    flat_map (fun p => match one p with OOk v => [(p, v)] | _ => [] end) (firsts l).
  Definition expected (l : list str) : value := if a_file_paths a then VObj (entries l) else VArr (values l).
  Definition unconvertible (l : list str) : list str := filter (fun p => match one p with OErr => true | _ => false end) l.
End Files.

(** ** Directories *)
Section Dirs.
  Context (is_dir is_file : str -> bool) (walk : str -> list str * bool) (build_glob : str -> str -> option (str -> bool)) (a : args).
  (** A path on the command line that cannot be expanded: a directory, and there is no pattern, the
      pattern is invalid, or a part of the directory cannot be read and nobody asked to go on. *)
  Definition unlisted (p : str) : Prop :=
    is_dir p = true /\
    (a_glob a = None \/ (exists g, a_glob a = Some g /\ build_glob p g = None) \/
     (a_continue a = false /\ snd (walk p) = true)).
  (** The files a path stands for: itself, or the matching files below it. *)
  Definition stands_for (p q : str) : Prop :=
    if is_dir p then
      In q (fst (walk p)) /\ is_file q = true /\ exists g m, a_glob a = Some g /\ build_glob p g = Some m /\ m q = true
    else q = p.
  (** Whether several files are to be converted. *)
  Definition many : Prop :=
    match a_paths a with [] => False | [p] => p <> lit "-"%string /\ is_dir p = true | _ => True end.
End Dirs.

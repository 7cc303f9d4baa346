(** * Heredoc dedenting and indenting

    Models crates/hcl-edit/src/util.rs and [Template::dedent],
    crates/hcl-edit/src/template/mod.rs:402-436. *)
From Coq Require Import NArith Bool String List.
From Verif Require Import Str.
Import ListNotations.
Open Scope nat_scope.

Definition LF : chr := 10%N.
Definition CR : chr := 13%N.

(** [str::split_inclusive('\n')]: the lines of a text, each with its line feed; generic in the
    character type. *)
Section SplitIncl.
  Context {A : Type} (isnl : A -> bool).
  Fixpoint split_incl (s : list A) : list (list A) :=
    match s with
    | [] => []
    | c :: r =>
        if isnl c then [c] :: split_incl r
        else match split_incl r with
             | [] => [[c]]
             | l :: ls => (c :: l) :: ls
             end
    end.
End SplitIncl.

Definition is_lf (c : chr) : bool := N.eqb c LF.

(** The line terminator removed by [str::lines]: "\n" or "\r\n". *)
Fixpoint chomp (l : str) : str :=
  match l with
  | [] => []
  | c :: r =>
      match r with
      | [] => if is_lf c then [] else [c]
      | [d] => if N.eqb c CR && is_lf d then [] else c :: chomp r
      | _ => c :: chomp r
      end
  end.

(** [str::lines]. *)
Definition lines (s : str) : list str := map chomp (split_incl is_lf s).

(** [str::ends_with('\n')]. *)
Definition ends_nl (s : str) : bool :=
  match rev s with c :: _ => is_lf c | [] => false end.

Definition is_nil {A} (l : list A) : bool := match l with [] => true | _ => false end.

(** [dedent_by], util.rs:3-24: the loop over the enumerated lines, then the removal of the last
    line feed when the input has none. *)
Fixpoint dedent_lines (n : nat) (skip_first : bool) (ls : list str) : str :=
  match ls with
  | [] => []
  | l :: ls =>
      (if skip_first then l else if is_nil l then [] else skipn n l)
      ++ LF :: dedent_lines n false ls
  end.
Definition dedent_by (s : str) (n : nat) (skip_first : bool) : str :=
  let d := dedent_lines n skip_first (lines s) in
  if ends_nl d && negb (ends_nl s) then removelast d else d.

(** [take_while(is_whitespace).count()], util.rs:40. *)
Fixpoint leading_ws (l : str) : nat :=
  match l with [] => 0 | c :: l => if is_whitespace c then S (leading_ws l) else 0 end.

(** [min_leading_whitespace], util.rs:26-54: [best] is the loop variable; the early [return None] on
    a line without leading whitespace. *)
Fixpoint min_ws_lines (skip_first : bool) (best : option nat) (ls : list str) : option nat :=
  match ls with
  | [] => best
  | l :: ls =>
      if skip_first || is_nil l then min_ws_lines false best ls
      else
        let w := leading_ws l in
        if Nat.eqb w 0 then None
        else min_ws_lines false (Some (match best with Some b => Nat.min b w | None => w end)) ls
  end.
Definition min_leading_whitespace (s : str) (skip_first : bool) : option nat :=
  if is_nil s then None else min_ws_lines skip_first None (lines s).

(** [indent_by], util.rs:56-80. *)
Fixpoint indent_lines (prefix : str) (first skip_first : bool) (ls : list str) : str :=
  match ls with
  | [] => []
  | l :: ls =>
      (if first then (if negb skip_first && negb (is_nil l) then prefix else [])
       else LF :: (if is_nil l then [] else prefix))
      ++ l ++ indent_lines prefix false skip_first ls
  end.
Definition indent_by (s : str) (n : nat) (skip_first : bool) : str :=
  indent_lines (repeat 32%N n) true skip_first (lines s) ++ (if ends_nl s then [LF] else []).

(** A template element as seen by [dedent]: a literal, or an interpolation or directive, which it
    never looks into. *)
Inductive tel (E : Type) := TLit (s : str) | TOther (e : E).
Arguments TLit {E}. Arguments TOther {E}.

(** [Template::dedent], template/mod.rs:404-436: the first loop (computing the indent; [inl tt] is
    the early [return None]), the second loop, and the function. *)
Section Dedent.
  Context {E : Type}.
  Fixpoint dedent_measure (skip_first : bool) (indent : option nat) (t : list (tel E))
    : unit + option nat :=
    match t with
    | [] => inr indent
    | TLit s :: t =>
        let indent := match min_leading_whitespace s skip_first with
                      | Some w => Some (match indent with Some i => Nat.min i w | None => w end)
                      | None => indent
                      end in
        dedent_measure (negb (ends_nl s)) indent t
    | TOther _ :: t => if skip_first then dedent_measure skip_first indent t else inl tt
    end.
  Fixpoint dedent_apply (n : nat) (skip_first : bool) (t : list (tel E)) : list (tel E) :=
    match t with
    | [] => []
    | TLit s :: t =>
        let d := dedent_by s n skip_first in
        TLit d :: dedent_apply n (negb (ends_nl d)) t
    | TOther e :: t => TOther e :: dedent_apply n true t
    end.
  Definition dedent (t : list (tel E)) : list (tel E) * option nat :=
    match dedent_measure false None t with
    | inr (Some n) => (dedent_apply n false t, Some n)
    | inr None | inl tt => (t, None)
    end.
End Dedent.

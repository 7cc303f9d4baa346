(** * Parser combinators

    The part of the crate [winnow] (version 0.7, not in the repository; modelled from its
    documentation and source) used by crates/hcl-edit/src/parser, on [LocatingSlice<&str>].

    A state is the byte offset of the next character and the remaining text.  A parser returns
    - [POk]: a value and the state after it,
    - [PErr cut]: a recoverable ([ErrMode::Backtrack]) or fatal ([ErrMode::Cut]) error and the state
      in which it was raised: [parse] reports the position of that state, and callers which swallow
      errors go on from it,
    - [PPanic]: the code panics,
    - [PFuel]: the recursion bound of the model is exhausted; proved never to happen.
    The text of error messages ([ContextError]) is not modelled. *)
From Coq Require Import NArith Bool String List.
From Verif Require Import Res Str EAst.
Import ListNotations.
Open Scope N_scope.

Definition st := (N * str)%type.
Inductive pres (A : Type) : Type :=
| POk (a : A) (s : st)
| PErr (cut : bool) (s : st)
| PPanic
| PFuel.
Arguments POk {A}. Arguments PErr {A}. Arguments PPanic {A}. Arguments PFuel {A}.
Definition parser (A : Type) := st -> pres A.

Definition ret {A} (a : A) : parser A := fun s => POk a s.
(** Sequencing, as in tuples, [preceded], [terminated], [delimited], [separated_pair]: an error of
    either part leaves the input where it occurred. *)
Definition bind {A B} (p : parser A) (f : A -> parser B) : parser B :=
  fun s => match p s with
           | POk a s => f a s
           | PErr c s => PErr c s
           | PPanic => PPanic
           | PFuel => PFuel
           end.
Declare Scope parser_scope.
Delimit Scope parser_scope with parser.
Notation "x <- p ;; q" := (bind p (fun x => q)) (at level 61, p at next level, right associativity) : parser_scope.
Notation "' x <- p ;; q" := (bind p (fun x => q)) (at level 61, x strict pattern, p at next level, right associativity) : parser_scope.
Notation "p ;; q" := (bind p (fun _ => q)) (at level 61, right associativity) : parser_scope.
Open Scope parser_scope.

Definition pmap {A B} (f : A -> B) (p : parser A) : parser B := x <- p ;; ret (f x).
(** [fail] *)
Definition fail {A} : parser A := fun s => PErr false s.
(** [cut_err] *)
Definition cut {A} (p : parser A) : parser A :=
  fun s => match p s with PErr _ s => PErr true s | r => r end.
(** [alt], two alternatives; more are nested. *)
Definition alt {A} (p q : parser A) : parser A :=
  fun s => match p s with PErr false _ => match q s with PErr false _ => PErr false s | r => r end | r => r end.
(** [opt] *)
Definition opt {A} (p : parser A) : parser (option A) :=
  fun s => match p s with
           | POk a s => POk (Some a) s
           | PErr false _ => POk None s
           | PErr true s => PErr true s
           | PPanic => PPanic
           | PFuel => PFuel
           end.
(** [peek], which rewinds on success and on failure *)
Definition peek {A} (p : parser A) : parser A :=
  fun s => match p s with
           | POk a _ => POk a s
           | PErr c _ => PErr c s
           | PPanic => PPanic
           | PFuel => PFuel
           end.
(** [not] *)
Definition pnot {A} (p : parser A) : parser unit :=
  fun s => match p s with
           | POk _ _ => PErr false s
           | PErr false _ => POk tt s
           | PErr true s' => PErr true s
           | PPanic => PPanic
           | PFuel => PFuel
           end.
(** [verify_map] and [try_map]: rewinds if the function rejects the value. *)
Definition verify_map {A B} (p : parser A) (f : A -> option B) : parser B :=
  fun s => match p s with
           | POk a s' => match f a with Some b => POk b s' | None => PErr false s end
           | PErr c s => PErr c s
           | PPanic => PPanic
           | PFuel => PFuel
           end.
(** A panicking computation applied to the result. *)
Definition lift {A} (r : res A) : parser A :=
  fun s => match r with Done a => POk a s | Panic => PPanic end.

(** [with_span]; [LocatingSlice] reports the current offset. *)
Definition with_span {A} (p : parser A) : parser (A * bspan) :=
  fun s => match p s with
           | POk a s' => POk (a, (fst s, fst s')) s'
           | PErr c s => PErr c s
           | PPanic => PPanic
           | PFuel => PFuel
           end.
Definition pspan {A} (p : parser A) : parser bspan := pmap snd (with_span p).
(** [with_taken]: the value and the consumed text. *)
Definition consumed (s s' : str) : str := firstn (List.length s - List.length s') s.
Definition with_taken {A} (p : parser A) : parser (A * str) :=
  fun s => match p s with
           | POk a s' => POk (a, consumed (snd s) (snd s')) s'
           | PErr c s => PErr c s
           | PPanic => PPanic
           | PFuel => PFuel
           end.
(** [take] *)
Definition taken {A} (p : parser A) : parser str := pmap snd (with_taken p).

(** The position in the input. *)
Definition pos : parser N := fun s => POk (fst s) s.

(** [any], [one_of], a character, a tag, [take_while(0..)], [take(n)], [eof] *)
Definition any : parser N :=
  fun s => match snd s with [] => PErr false s | c :: r => POk c (fst s + clen c, r) end.
Definition one_of (f : N -> bool) : parser N :=
  fun s => match snd s with
           | c :: r => if f c then POk c (fst s + clen c, r) else PErr false s
           | [] => PErr false s
           end.
Definition char (c : N) : parser N := one_of (N.eqb c).
Definition tag (t : str) : parser unit :=
  fun s => if starts_with t (snd s) then POk tt (fst s + blen t, skipn (List.length t) (snd s)) else PErr false s.
Definition take_while0 (f : N -> bool) : parser str :=
  fun s => let '(a, b) := span f (snd s) in POk a (fst s + blen a, b).
Definition take_while1 (f : N -> bool) : parser str :=
  fun s => let '(a, b) := span f (snd s) in
           match a with [] => PErr false s | _ => POk a (fst s + blen a, b) end.
Definition take_n (n : nat) : parser str :=
  fun s => if Nat.leb n (List.length (snd s))
           then POk (firstn n (snd s)) (fst s + blen (firstn n (snd s)), skipn n (snd s))
           else PErr false s.
Definition eof : parser unit :=
  fun s => match snd s with [] => POk tt s | _ => PErr false s end.

(** The first occurrence of a tag: the text before it. *)
Fixpoint find_tag (t s : str) : option str :=
  if starts_with t s then Some []
  else match s with [] => None | c :: s => option_map (cons c) (find_tag t s) end.
(** [take_until(0.., t)] *)
Definition take_until (t : str) : parser str :=
  fun s => match find_tag t (snd s) with
           | Some a => POk a (fst s + blen a, skipn (List.length a) (snd s))
           | None => PErr false s
           end.

(** [repeat(0..)]: stops at the first recoverable error; a successful iteration which consumes
    nothing is a panic (an assertion in debug builds). *)
Fixpoint many_loop {A} (n : nat) (p : parser A) (s : st) : pres (list A) :=
  match n with
  | O => PFuel
  | S n =>
      match p s with
      | POk a s' =>
          if Nat.eqb (List.length (snd s')) (List.length (snd s)) then PPanic
          else match many_loop n p s' with
               | POk l s => POk (a :: l) s
               | PErr c s => PErr c s
               | PPanic => PPanic
               | PFuel => PFuel
               end
      | PErr false _ => POk [] s
      | PErr true s => PErr true s
      | PPanic => PPanic
      | PFuel => PFuel
      end
  end.
Definition many0 {A} (p : parser A) : parser (list A) :=
  fun s => many_loop (S (List.length (snd s))) p s.
(** [repeat(1..)] *)
Definition many1 {A} (p : parser A) : parser (list A) :=
  x <- p ;; l <- many0 p ;; ret (x :: l).
(** [separated(0.., p, sep)] and [separated(1.., p, sep)]: if [p] fails after a separator the
    separator is given back. *)
Definition separated1 {A B} (p : parser A) (sep : parser B) : parser (list A) :=
  x <- p ;; l <- many0 (sep ;; p) ;; ret (x :: l).
Definition separated0 {A B} (p : parser A) (sep : parser B) : parser (list A) :=
  pmap (fun o => match o with Some l => l | None => [] end) (opt (separated1 p sep)).

(** [space0], [multispace0], [line_ending], [newline], [crlf], [till_line_ending], [digit1] *)
Definition is_space (c : N) : bool := (c =? 32) || (c =? 9).
Definition is_multispace (c : N) : bool := (c =? 32) || (c =? 9) || (c =? 13) || (c =? 10).
Definition space0 : parser str := take_while0 is_space.
Definition multispace0 : parser str := take_while0 is_multispace.
Definition line_ending : parser str := taken (alt (tag [10]) (tag [13; 10])).
Definition not_eol (c : N) : bool := negb ((c =? 10) || (c =? 13)).
Definition till_line_ending : parser str :=
  a <- take_while0 not_eol ;;
  (fun s => match snd s with
            | 13 :: r => match r with 10 :: _ => POk a s | _ => PErr false s end
            | _ => POk a s
            end).
Definition digit1 : parser str := take_while1 is_digit.

(** [Parser::parse]: the parser, then the end of the input. *)
Inductive parsed (A : Type) := Parsed (a : A) | ParseError (offset : N) | ParsePanic | ParseFuel.
Arguments Parsed {A}. Arguments ParseError {A}. Arguments ParsePanic {A}. Arguments ParseFuel {A}.
Definition parse {A} (p : parser A) (input : str) : parsed A :=
  match (x <- p ;; eof ;; ret x) (0, input) with
  | POk a _ => Parsed a
  | PErr _ s => ParseError (fst s)
  | PPanic => ParsePanic
  | PFuel => ParseFuel
  end.

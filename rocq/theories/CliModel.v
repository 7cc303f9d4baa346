(** * hcl2json

    Models crates/hcl2json/src/main.rs.  The file system, the directory walk and the glob matcher are
    parameters; they do not change during a run.  Error messages and the text of the JSON written are
    not modelled: the output is the JSON value. *)
From Coq Require Import NArith Bool String List.
From Verif Require Import Res Str NumberModel PrimModel Ast EvalModel ParseBase ParseModel DeModel.
From Verif Require MapModel.
Import ListNotations.
Open Scope list_scope.

(** main.rs:15-59 *)
Record args := Args {
  a_glob : option str; a_file_paths : bool; a_continue : bool; a_simplify : bool; a_paths : list str }.

(** [read_hcl], main.rs:163-178; [n] bounds the nesting of templates in the evaluator.  The bytes of
    the file are given as text; [None] is a file that cannot be opened, read or is not UTF-8. *)
Definition read_hcl u b pf sf (n : nat) (simplify_ : bool) (text : option str) : outcome :=
  match text with
  | None => OErr
  | Some s =>
      match read_body u b pf sf s with
      | ParseError _ => OErr
      | ParsePanic => OPanic
      | ParseFuel => OFuel
      | Parsed x =>
          if simplify_ then
            let (x, errs) := simplify u b pf sf n x in
            if existsb (fun f => match f with FPanic => true | _ => false end) errs then OPanic
            else if existsb (fun f => match f with FFuel => true | _ => false end) errs then OFuel
            else json_of_body u sf x
          else json_of_body u sf x
      end
  end.

(** ** Parallel iteration (rayon)

    [paths.into_par_iter()] splits the list again and again into halves, down to pieces that are
    processed one element after the other; pieces are worked on by any number of threads, in any
    interleaving, and the results of neighbouring pieces are concatenated.  Where and when pieces are
    split depends on the number of threads and on who is idle; here any piece that has not been
    started can be split anywhere at any time. *)
Section Par.
  Context {A B S : Type}.
  Inductive ptree :=
  | PLeaf (todo : list A) (done : list B)
  | PNode (l r : ptree).
  (** What processing the next element of a piece does, [S] being shared by all threads. *)
  Context (work : list A -> list B -> S -> list A -> list B -> S -> Prop).
  Inductive pstep : ptree -> S -> ptree -> S -> Prop :=
  | Psplit a b s : a <> [] -> b <> [] -> pstep (PLeaf (a ++ b) []) s (PNode (PLeaf a []) (PLeaf b [])) s
  | Pwork l d s l' d' s' : work l d s l' d' s' -> pstep (PLeaf l d) s (PLeaf l' d') s'
  | Pleft l l' r s s' : pstep l s l' s' -> pstep (PNode l r) s (PNode l' r) s'
  | Pright l r r' s s' : pstep r s r' s' -> pstep (PNode l r) s (PNode l r') s'.
  Inductive psteps : ptree -> S -> ptree -> S -> Prop :=
  | Psteps_nil t s : psteps t s t s
  | Psteps_cons t s t1 s1 t' s' : pstep t s t1 s1 -> psteps t1 s1 t' s' -> psteps t s t' s'.
  Fixpoint pdone (t : ptree) : bool :=
    match t with PLeaf [] _ => true | PLeaf _ _ => false | PNode l r => pdone l && pdone r end.
  Fixpoint presult (t : ptree) : list B :=
    match t with PLeaf _ d => d | PNode l r => presult l ++ presult r end.
End Par.
Arguments ptree : clear implicits.

Inductive pres (B E : Type) := POk (y : B) | PErr (e : E) | PPanic.
Arguments POk {B E}. Arguments PErr {B E}. Arguments PPanic {B E}.

Section Modes.
  Context {A B E : Type} (f : A -> pres B E).
  (** [filter_map(...).collect::<Vec<_>>()], main.rs:123-133.  Shared: the files for which a warning
      has been written to stderr, and whether some element panicked; a panic ends its piece, the other
      pieces are finished before it is propagated. *)
  Inductive work_continue : list A -> list B -> list A * bool -> list A -> list B -> list A * bool -> Prop :=
  | WC_ok x l d w p y : f x = POk y -> work_continue (x :: l) d (w, p) l (d ++ [y]) (w, p)
  | WC_err x l d w p e : f x = PErr e -> work_continue (x :: l) d (w, p) l d (w ++ [x], p)
  | WC_panic x l d w p : f x = PPanic -> work_continue (x :: l) d (w, p) [] d (w, true).
  (** [map(...).collect::<Result<_>>()], main.rs:135-139: rayon keeps the first error it gets hold of,
      and raises a flag; a piece that sees the flag (it need not see it at once) stops. *)
  Record rshared := Rshared { r_saved : option E; r_full : bool; r_panic : bool }.
  Inductive work_result : list A -> list B -> rshared -> list A -> list B -> rshared -> Prop :=
  | WR_ok x l d s y : f x = POk y -> work_result (x :: l) d s l (d ++ [y]) s
  | WR_err x l d sv fl p e : f x = PErr e ->
      work_result (x :: l) d (Rshared sv fl p) [] d (Rshared (match sv with Some e0 => Some e0 | None => Some e end) true p)
  | WR_full x l d s : r_full s = true -> work_result (x :: l) d s [] d s
  | WR_panic x l d sv fl p : f x = PPanic -> work_result (x :: l) d (Rshared sv fl p) [] d (Rshared sv fl true).

  (** What a whole parallel iteration can come to. *)
  Inductive collected : bool -> list A -> pres (list B) E -> list A -> Prop :=
  | Col_continue l t w (p : bool) :
      psteps work_continue (PLeaf l []) ([], false) t (w, p) -> pdone t = true ->
      collected true l (if p then PPanic else POk (presult t)) w
  | Col_result l t s :
      psteps work_result (PLeaf l []) (Rshared None false false) t s -> pdone t = true ->
      collected false l
        (if r_panic s then PPanic else match r_saved s with Some e => PErr e | None => POk (presult t) end) [].
End Modes.

Section Main.
  Context (u : unicode) (b : build) (pf : str -> f64) (sf : f64 -> str) (n : nat).
  (** The file system: [File::open] and reading, [Path::is_dir], [Path::is_file]; the entries
      [walkdir::WalkDir::new(dir).sort_by_file_name()] yields before the first error, and whether there
      is one; building and asking the glob matcher (for the directory and the pattern). *)
  Context (read : str -> option str) (stdin : option str) (is_dir is_file : str -> bool)
    (walk : str -> list str * bool) (build_glob : str -> str -> option (str -> bool)).

  (** [process_file], main.rs:154-161.  The error says which file it was ([with_context], 137).  Running
      out of nesting depth is a crash (stack overflow). *)
  Definition process_file (a : args) (path : str) : pres (str * value) str :=
    match read_hcl u b pf sf n (a_simplify a) (read path) with
    | OOk v => POk (path, v)
    | OErr => PErr path
    | OPanic | OFuel => PPanic
    end.

  (** main.rs:142-146: an object keyed by path, or an array. *)
  Definition bulk_value (a : args) (results : list (str * value)) : value :=
    if a_file_paths a then VObj (MapModel.from_iter seqb results) else VArr (map snd results).

  Inductive exit := Written (v : value) | Failed | Crashed.
  (** [bulk_convert], main.rs:119-149, as a relation to the possible outcomes; [w] are the files for
      which a warning was printed. *)
  Inductive bulk_convert (a : args) (paths : list str) : exit -> list str -> Prop :=
  | Bulk r w :
      collected (process_file a) (a_continue a) paths r w ->
      bulk_convert a paths
        (match r with POk l => Written (bulk_value a l) | PErr _ => Failed | PPanic => Crashed end) w.

  (** [glob_files], main.rs:190-200: pushes files up to the first error. *)
  Definition glob_files (matches : str -> bool) (dir : str) : list str * bool :=
    let (l, err) := walk dir in (filter (fun p => is_file p && matches p) l, err).

  (** main.rs:82-109: the files to convert, or failure. *)
  Fixpoint expand (a : args) (paths : list str) : option (list str) :=
    match paths with
    | [] => Some []
    | p :: rest =>
        if is_dir p then
          match a_glob a with
          | None => None
          | Some g =>
              match build_glob p g with
              | None => None
              | Some m =>
                  let (l, err) := glob_files m p in
                  if err && negb (a_continue a) then None else option_map (app l) (expand a rest)
              end
          end
        else option_map (cons p) (expand a rest)
    end.

  (** [convert], main.rs:113-117. *)
  Definition convert (a : args) (text : option str) : exit :=
    match read_hcl u b pf sf n (a_simplify a) text with OOk v => Written v | OErr => Failed | _ => Crashed end.

  (** [main], main.rs:61-111, after parsing the command line. *)
  Inductive main (a : args) : exit -> list str -> Prop :=
  | Main_stdin : a_paths a = [] \/ a_paths a = [lit "-"] -> main a (convert a stdin) []
  | Main_one p : a_paths a = [p] -> p <> lit "-" -> is_dir p = false -> main a (convert a (read p)) []
  | Main_bad : a_paths a <> [] -> a_paths a <> [lit "-"] ->
      (forall p, a_paths a = [p] -> is_dir p = true) -> expand a (a_paths a) = None -> main a Failed []
  | Main_bulk l r w : a_paths a <> [] -> a_paths a <> [lit "-"] ->
      (forall p, a_paths a = [p] -> is_dir p = true) -> expand a (a_paths a) = Some l ->
      bulk_convert a l r w -> main a r w.
End Main.

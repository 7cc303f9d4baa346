(** * Turning Rust values into HCL values and expressions, and reading them back

    crates/hcl-rs/src/value/from.rs, the conversions of crates/hcl-rs/src/expr/mod.rs:123-218 and the
    accessors of crates/hcl-rs/src/value/mod.rs:35-198. *)
From Coq Require Import ZArith Bool List.
From Flocq Require Import Core IEEE754.BinarySingleNaN.
From Verif Require Import Res Str NumberModel Ast.
From Verif Require MapModel.
Import ListNotations.
Open Scope Z_scope.

(** Rust's [f32]. *)
Definition f32 := binary_float 24 128.

(** [f as f64], value/from.rs:21 and expr/mod.rs:140: sign, significand and exponent are kept and
    normalised for the wider format. *)
Definition f64_of_f32 (f : f32) : f64 :=
  match f with
  | B754_zero s => B754_zero s
  | B754_infinity s => B754_infinity s
  | B754_nan => B754_nan
  | B754_finite s m e _ => binary_normalize prec emax _ _ mode_NE (SpecFloat.cond_Zopp s (Zpos m)) e s
  end.

(** The Rust values that have a conversion.  [HSigned] stands for i8, i16, i32, i64, isize and
    [HUnsigned] for u8, u16, u32, u64, usize (64 bits); [HStr] for String, &str and Cow<str>;
    [HVec] for Vec<T>, &[T] and iterators over T; [HPairs] for iterators over (String, V) pairs;
    [HVal] for a Value itself, which includes Map<String, Value> (from.rs:61-65, wrapped unchanged).
    Rust's element types are uniform; here elements may be mixed, which covers more. *)
Inductive host :=
| HUnit
| HBool (b : bool)
| HSigned (z : Z)
| HUnsigned (z : Z)
| HF32 (f : f32)
| HF64 (f : f64)
| HNum (n : num)
| HStr (s : str)
| HVec (l : list host)
| HPairs (l : list (str * host))
| HVal (v : value).

(** [Iterator::collect] over conversions, in order. *)
Fixpoint rall {A} (l : list (res A)) : res (list A) :=
  match l with
  | [] => Done []
  | x :: l => rbind x (fun a => rmap (cons a) (rall l))
  end.

(** [From<f64> for Value], from.rs:25-29, and [From<f64> for Expression], expr/mod.rs:144-148. *)
Definition value_of_f64 (b : build) (f : f64) : res value :=
  rmap (fun o => match o with Some n => VNum n | None => VNull end) (num_from_f64 b f).
Definition expr_of_f64 (b : build) (f : f64) : res expr :=
  rmap (fun o => match o with Some n => ENum n | None => ENull end) (num_from_f64 b f).

(** [Value::from] and [Value::from_iter], value/from.rs:4-99. *)
Fixpoint value_from (b : build) (h : host) : res value :=
  match h with
  | HUnit => Done VNull
  | HBool x => Done (VBool x)
  | HSigned z => Done (VNum (num_of_i64 z))
  | HUnsigned z => Done (VNum (num_of_u64 z))
  | HF32 f => value_of_f64 b (f64_of_f32 f)
  | HF64 f => value_of_f64 b f
  | HNum n => Done (VNum n)
  | HStr s => Done (VStr s)
  | HVec l => rmap VArr (rall (map (value_from b) l))
  | HPairs l => rmap (fun m => VObj (MapModel.from_iter seqb m))
                     (rall (map (fun p => rmap (pair (fst p)) (value_from b (snd p))) l))
  | HVal v => Done v
  end.

(** [Expression::from] and [Expression::from_iter], expr/mod.rs:123-218 and, for [HVal], 110-121.
    A string key becomes an expression key (expr/mod.rs:299-306). *)
Fixpoint expr_from (b : build) (h : host) : res expr :=
  match h with
  | HUnit => Done ENull
  | HBool x => Done (EBool x)
  | HSigned z => Done (ENum (num_of_i64 z))
  | HUnsigned z => Done (ENum (num_of_u64 z))
  | HF32 f => expr_of_f64 b (f64_of_f32 f)
  | HF64 f => expr_of_f64 b f
  | HNum n => Done (ENum n)
  | HStr s => Done (EStr s)
  | HVec l => rmap EArr (rall (map (expr_from b) l))
  | HPairs l => rmap (fun m => EObj (eobj_collect m))
                     (rall (map (fun p => rmap (pair (KExpr (EStr (fst p)))) (expr_from b (snd p))) l))
  | HVal v => Done (expr_of_value v)
  end.

(** [Expression::from_iter] over pairs of an [Identifier] and a value, expr/mod.rs:204-212: the keys
    become identifier keys (308-312). *)
Definition expr_from_idents (b : build) (l : list (str * host)) : res expr :=
  rmap (fun m => EObj (eobj_collect m)) (rall (map (fun p => rmap (pair (KIdent (fst p))) (expr_from b (snd p))) l)).

(** ** Accessors of [Value] *)
(** value/mod.rs:38-52 *)
Definition v_as_array (v : value) : option (list value) := match v with VArr l => Some l | _ => None end.
(** value/mod.rs:56-61 *)
Definition v_as_bool (v : value) : option bool := match v with VBool b => Some b | _ => None end.
(** value/mod.rs:76-81 *)
Definition v_as_null (v : value) : option unit := match v with VNull => Some tt | _ => None end.
(** value/mod.rs:85-90 *)
Definition v_as_number (v : value) : option num := match v with VNum n => Some n | _ => None end.
(** value/mod.rs:94-108 *)
Definition v_as_object (v : value) : option (list (str * value)) := match v with VObj m => Some m | _ => None end.
(** value/mod.rs:112-117 *)
Definition v_as_str (v : value) : option str := match v with VStr s => Some s | _ => None end.
Definition and_then {A B} (o : option A) (f : A -> option B) : option B := match o with Some a => f a | None => None end.
Definition is_some {A} (o : option A) : bool := match o with Some _ => true | None => false end.
Definition is_some_and {A} (o : option A) (f : A -> bool) : bool := match o with Some a => f a | None => false end.
(** value/mod.rs:65-73 and 121-123 *)
Definition v_as_f64 (v : value) : option f64 := and_then (v_as_number v) as_f64.
Definition v_as_i64 (v : value) : option Z := and_then (v_as_number v) as_i64.
Definition v_as_u64 (v : value) : option Z := and_then (v_as_number v) as_u64.
(** value/mod.rs:125-193 *)
Definition v_is_array (v : value) : bool := is_some (v_as_array v).
Definition v_is_boolean (v : value) : bool := is_some (v_as_bool v).
Definition v_is_number (v : value) : bool := is_some (v_as_number v).
Definition v_is_null (v : value) : bool := is_some (v_as_null v).
Definition v_is_object (v : value) : bool := is_some (v_as_object v).
Definition v_is_string (v : value) : bool := is_some (v_as_str v).
Definition v_is_f64 (v : value) : bool := is_some_and (v_as_number v) is_f64.
Definition v_is_i64 (v : value) : bool := is_some_and (v_as_number v) is_i64.
Definition v_is_u64 (v : value) : bool := is_some_and (v_as_number v) is_u64.
(** [Value::take], value/mod.rs:195-198: what is returned and what stays behind. *)
Definition v_take (v : value) : value * value := (v, VNull).

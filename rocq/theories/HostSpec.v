(** * What a Rust value stands for (C59)

    The only names taken from the model are the [host] syntax and Flocq's floats. [valR] is the real
    number a Number stands for (NumberProofs.v), [distinct] (EvalSpec.v) keeps the first occurrence
    of every key and [last_value] (OpSpec.v) is the value of the last pair with a key. *)
From Coq Require Import ZArith Reals Bool List.
From Flocq Require Import Core IEEE754.BinarySingleNaN.
From Verif Require Import Str NumberModel NumberProofs FloatProofs Ast EvalSpec OpSpec HostModel.
Import ListNotations.

(** Rust's types: integers are in range and a Map has distinct keys. *)
Fixpoint typed (h : host) : Prop :=
  match h with
  | HSigned z => (i64_min <= z <= i64_max)%Z
  | HUnsigned z => (0 <= z <= u64_max)%Z
  | HVec l => fold_right (fun h P => typed h /\ P) True l
  | HPairs l => fold_right (fun p P => typed (snd p) /\ P) True l
  | HVal v => wf_value v
  | _ => True
  end.

(** Floats without a fraction lie in the range of i64. *)
Definition in_i64 (x : R) : Prop := is_int x -> (IZR i64_min <= x <= IZR i64_max)%R.
Fixpoint fits (h : host) : Prop :=
  match h with
  | HF32 f => in_i64 (B2R f)
  | HF64 f => in_i64 (B2R f)
  | HVec l => fold_right (fun h P => fits h /\ P) True l
  | HPairs l => fold_right (fun p P => fits (snd p) /\ P) True l
  | _ => True
  end.

(** [v] is a well-formed number equal to [x]. *)
Definition is_real (x : R) (v : value) : Prop := exists n, v = VNum n /\ num_wf n /\ valR n = x.

(** [denotes h v]: the HCL value [v] says what the Rust value [h] says.  Infinities and NaN, which HCL
    does not have, become null; of several pairs with one key the last counts, at the place of the
    first. *)
Inductive denotes : host -> value -> Prop :=
| D_unit : denotes HUnit VNull
| D_bool b : denotes (HBool b) (VBool b)
| D_signed z v : is_real (IZR z) v -> denotes (HSigned z) v
| D_unsigned z v : is_real (IZR z) v -> denotes (HUnsigned z) v
| D_f32 f v : is_finite f = true -> is_real (B2R f) v -> denotes (HF32 f) v
| D_f32_none f : is_finite f = false -> denotes (HF32 f) VNull
| D_f64 f v : is_finite f = true -> is_real (B2R f) v -> denotes (HF64 f) v
| D_f64_none f : is_finite f = false -> denotes (HF64 f) VNull
| D_num n : denotes (HNum n) (VNum n)
| D_str s : denotes (HStr s) (VStr s)
| D_vec l vs : Forall2 denotes l vs -> denotes (HVec l) (VArr vs)
| D_pairs l kvs m :
    Forall2 (fun p kv => fst kv = fst p /\ denotes (snd p) (snd kv)) l kvs ->
    map fst m = distinct (map fst l) ->
    (forall k x, In (k, x) m <-> last_value k kvs = Some x) ->
    denotes (HPairs l) (VObj m)
| D_val v : denotes (HVal v) v.

(** Model of gcd and lcm: python/polars_ds/exprs/num.py 187-232 and src/num_ext/gcd_lcm.rs. *)
From Coq Require Import ZArith List.
From Verif Require Import GcdSpec.
Import ListNotations.
Open Scope Z_scope.

Inductive res := Ok (x : zcol) | Err | Panic.
(** Wrapping 32-bit arithmetic (Cargo.toml has no overflow checks in the release profile). *)
Definition wrap32 (z : Z) : Z := (z + 2 ^ 31) mod 2 ^ 32 - 2 ^ 31.
(** num::integer::gcd on i32: the gcd, wrapped (only abs(i32::MIN) does not fit). *)
Definition gcd_i32 (a b : Z) : Z := wrap32 (Z.gcd a b).
(** num::integer::lcm on i32: 0 for two zeros, else |a * (b / gcd)| in wrapping arithmetic. *)
Definition lcm_i32 (a b : Z) : Z :=
  if andb (a =? 0) (b =? 0) then 0 else wrap32 (Z.abs (wrap32 (a * Z.quot b (gcd_i32 a b)))).
(** [apply_values] and [binary_elementwise_values]: nulls stay null. *)
Definition apply_values (f : Z -> Z) (x : zcol) : zcol := map (option_map f) x.
Definition binary_values (f : Z -> Z -> Z) (x y : zcol) : zcol :=
  map (fun p => match p with (Some a, Some b) => Some (f a b) | _ => None end) (combine x y).
(** gcd_lcm.rs 6-23 and 25-42: a second column of length 1 is taken as a scalar, [get(0).unwrap()] panics on null. *)
Definition pl_binary (f : Z -> Z -> Z) (ca1 ca2 : zcol) : res :=
  match ca2 with
  | [Some b] => Ok (apply_values (fun a => f a b) ca1)
  | [None] => Panic
  | _ => if Nat.eqb (length ca1) (length ca2) then Ok (binary_values f ca1 ca2) else Err
  end.
(** The strict cast to Int32 raises when a value does not fit. *)
Fixpoint cast32 (x : zcol) : option zcol :=
  match x with
  | [] => Some []
  | None :: x' => option_map (cons None) (cast32 x')
  | Some z :: x' => if andb (i32_min <=? z) (z <=? i32_max) then option_map (cons (Some z)) (cast32 x') else None
  end.
Inductive arg := Lit (z : Z) | Col (y : zcol).
(** num.py 198-208 / 222-232: [pl.lit(y, dtype=pl.Int32)] is a column of length 1. *)
Definition call (f : Z -> Z -> Z) (x : zcol) (y : arg) : res :=
  match cast32 x, cast32 (match y with Lit z => [Some z] | Col y => y end) with
  | Some x, Some y => pl_binary f x y
  | _, _ => Err
  end.
Definition gcd := call gcd_i32.
Definition lcm := call lcm_i32.

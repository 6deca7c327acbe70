(** Model of src/num_ext/trapz.rs in exact rational arithmetic ([f64] rounding not modelled;
    [cfavml] vector kernels are the elementwise operations and the dot product). *)
From Coq Require Import Bool List ZArith QArith Qabs.
Import ListNotations.
Open Scope Q_scope.

(** Elementwise combination of two slices of equal length ([cfavml::add_vector] etc.). *)
Fixpoint zipw {A B C} (f : A -> B -> C) (l : list A) (m : list B) : list C :=
  match l, m with a :: l', b :: m' => f a b :: zipw f l' m' | _, _ => [] end.
(** [cfavml::dot]. *)
Definition qdot (l m : list Q) : Q := fold_right Qplus 0 (zipw Qmult l m).

(** trapz.rs 7-18. *)
Definition trapz (y x : list Q) : Q :=
  match y, x with
  | [y0], [x0] => y0 * x0 * (- 1 # 2)
  | _, _ =>
      let y_d := zipw Qplus (tl y) (removelast y) in
      let x_d := zipw Qminus (tl x) (removelast x) in
      (1 # 2) * qdot y_d x_d
  end.

(** trapz.rs 20-24; [y[1..y.len() - 1]] panics on an empty slice, the caller never passes one. *)
Definition trapz_dx (y : list Q) (dx : Q) : Q :=
  let s := fold_right Qplus 0 (removelast (tl y)) in
  let ss := (1 # 2) * (hd 0 y + last y 0) in
  dx * (s + ss).

Inductive trapz_out := TVal (q : Q) | TNan | TErr.
Definition has_null {A} (l : list (option A)) : bool := existsb (fun o => match o with None => true | _ => false end) l.
Definition flat {A} (l : list (option A)) : list A := flat_map (fun o => match o with Some a => [a] | None => [] end) l.

(** trapz.rs 26-49 pl_trapz; the columns arrive as [f64] from Python (num.py 720-746). *)
Definition pl_trapz (y x : list (option Q)) : trapz_out :=
  if (length y <? 1)%nat || has_null x || has_null y then TNan
  else if (length x =? 1)%nat && (1 <? length y)%nat then TVal (trapz_dx (flat y) (hd 0 (flat x)))
  else if (length x =? length y)%nat then TVal (trapz (flat y) (flat x))
  else TErr.

(** num.py 720-746 integrate_trapz: a Python float for [x] is made positive. *)
Definition integrate_trapz_dx (y : list (option Q)) (dx : Q) : trapz_out := pl_trapz y [Some (Qabs dx)].

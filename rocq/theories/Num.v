(** Numeric interface used by the spatial code.

    The Rust code is generic over [T: num::Float] and is instantiated with [f64].  The model is
    parametrised by a plain record of the operations it uses; [F64.v] provides the IEEE-754
    binary64 instance for which the property theorems are stated. *)
From Coq Require Import Bool List.
Import ListNotations.

Record NumOps := {
  carrier : Type;
  nzero : carrier;
  none : carrier;                              (* T::one() *)
  nadd : carrier -> carrier -> carrier;
  nsub : carrier -> carrier -> carrier;
  nmul : carrier -> carrier -> carrier;
  ndiv : carrier -> carrier -> carrier;
  nsqrt : carrier -> carrier;
  nabs : carrier -> carrier;
  nlt : carrier -> carrier -> bool;            (* Rust `<`  (false on NaN) *)
  nle : carrier -> carrier -> bool;            (* Rust `<=` (false on NaN) *)
  nnan : carrier -> bool;                      (* is_nan *)
  nfinite : carrier -> bool;                   (* is_finite *)
  nmaxv : carrier;                             (* T::max_value() = f64::MAX *)
  nminv : carrier;                             (* T::min_value() = f64::MIN = -f64::MAX *)
  neps : carrier;                              (* T::epsilon() *)
  ninf : carrier;                              (* T::infinity() *)
  nnanv : carrier;                             (* T::nan() *)
}.

(** [f64::min] / [f64::max]: if exactly one argument is NaN the other is returned. *)
Definition nmin (N : NumOps) (a b : carrier N) : carrier N :=
  if nnan N a then b else if nnan N b then a else if nlt N b a then b else a.
Definition nmax (N : NumOps) (a b : carrier N) : carrier N :=
  if nnan N a then b else if nnan N b then a else if nlt N a b then b else a.

(** Facts about the operations that the correctness of the tree rests on.  They are proved for
    binary64 in [F64.v]; nothing here is assumed. *)
Record NumLaws (N : NumOps) : Prop := {
  le_nan_l : forall x y, nle N x y = true -> nnan N x = false;
  le_nan_r : forall x y, nle N x y = true -> nnan N y = false;
  le_refl : forall x, nnan N x = false -> nle N x x = true;
  le_trans : forall x y z, nle N x y = true -> nle N y z = true -> nle N x z = true;
  le_total : forall x y, nnan N x = false -> nnan N y = false ->
                         nle N x y = true \/ nle N y x = true;
  lt_le : forall x y, nlt N x y = true <->
                      (nnan N x = false /\ nnan N y = false /\ nle N y x = false);
  finite_nan : forall x, nfinite N x = true -> nnan N x = false;
  zero_finite : nfinite N (nzero N) = true;
  max_finite : nfinite N (nmaxv N) = true;
  min_finite : nfinite N (nminv N) = true;
  min_le_finite : forall x, nfinite N x = true -> nle N (nminv N) x = true;
  add_nan : forall x y, nnan N (nadd N x y) = false -> nnan N x = false /\ nnan N y = false;
  add_mono : forall a a' b b',
      nle N (nzero N) a = true -> nle N a a' = true ->
      nle N (nzero N) b = true -> nle N b b' = true ->
      nle N (nadd N a b) (nadd N a' b') = true;
  add_zero : forall a, nle N (nzero N) a = true ->
      nle N a (nadd N a (nzero N)) = true /\ nle N (nadd N a (nzero N)) a = true;
  sqrt_nan : forall x, nnan N (nsqrt N x) = false -> nnan N x = false;
  sqrt_mono : forall x y, nle N (nzero N) x = true -> nle N x y = true ->
      nle N (nzero N) (nsqrt N x) = true /\ nle N (nsqrt N x) (nsqrt N y) = true;
  (* absolute and squared coordinate differences *)
  absdiff_nan : forall p q, nnan N (nabs N (nsub N p q)) = false ->
                            nnan N p = false /\ nnan N q = false;
  sqdiff_nan : forall p q, nnan N (nmul N (nsub N p q) (nsub N p q)) = false ->
                           nnan N p = false /\ nnan N q = false;
  absdiff_nonneg : forall p q, nnan N p = false -> nfinite N q = true ->
      nle N (nzero N) (nabs N (nsub N p q)) = true;
  sqdiff_nonneg : forall p q, nnan N p = false -> nfinite N q = true ->
      nle N (nzero N) (nmul N (nsub N p q) (nsub N p q)) = true;
  absdiff_hi : forall p q h, nfinite N q = true -> nle N p h = true -> nle N h q = true ->
      nle N (nabs N (nsub N q h)) (nabs N (nsub N p q)) = true;
  absdiff_lo : forall p q l, nfinite N q = true -> nle N l p = true -> nle N q l = true ->
      nle N (nabs N (nsub N q l)) (nabs N (nsub N p q)) = true;
  sqdiff_hi : forall p q h, nfinite N q = true -> nle N p h = true -> nle N h q = true ->
      nle N (nmul N (nsub N q h) (nsub N q h)) (nmul N (nsub N p q) (nsub N p q)) = true;
  sqdiff_lo : forall p q l, nfinite N q = true -> nle N l p = true -> nle N q l = true ->
      nle N (nmul N (nsub N q l) (nsub N q l)) (nmul N (nsub N p q) (nsub N p q)) = true;
  abs_nonneg : forall x, nnan N (nabs N x) = false -> nle N (nzero N) (nabs N x) = true;
  sq_nonneg : forall x, nnan N (nmul N x x) = false -> nle N (nzero N) (nmul N x x) = true;
}.

(* The share of a beta distribution below a point, written without reference to the code: the substitution s = (1-u)/u turns
   it into the share of the area under [beta_kernel] beyond (1-y)/y. *)
From Coq Require Import Reals.
From Coquelicot Require Import Coquelicot.
From Verif Require Import BetaSpec.
Local Open Scope R_scope.

Definition beta_share (a b y v : R) : Prop :=
  exists total below, is_Beta a b total /\
    is_RInt_gen (beta_kernel a b) (at_point ((1 - y) / y)) (Rbar_locally p_infty) below /\ v = below / total.

(** C120.  The logarithm of the gamma function behind the p-values of [chi2] and [normal_test]. *)
From Coq Require Import Reals Lra.
From Coquelicot Require Import Coquelicot.
From Verif Require Import GamSpec GamModel GamInt GamLan5.
Local Open Scope R_scope.

(** C120.  Gamma(a) is defined for every positive a: the area is finite, and positive. *)
Theorem C120_gamma_defined : forall a, 0 < a -> exists G, is_Gamma a G /\ 0 < G.
Proof. exact gamma_defined. Qed.
Print Assumptions C120_gamma_defined.

(** C120.  There is only one such number. *)
Theorem C120_gamma_unique : forall a G H, is_Gamma a G -> is_Gamma a H -> G = H.
Proof. exact gamma_one. Qed.
Print Assumptions C120_gamma_unique.

(** C120.  From one half on, the code's [ln_gamma] is the logarithm of Gamma to 16 digits. *)
Theorem C120_ln_gamma : forall a G, 1 / 2 <= a -> is_Gamma a G -> Rabs (ln_gamma a - ln G) <= 1e-16.
Proof. exact ln_gamma_ok. Qed.
Print Assumptions C120_ln_gamma.
Example C120_case : 1 / 2 <= 2 /\ is_Gamma 2 1.
Proof. exact gamma_2. Qed.

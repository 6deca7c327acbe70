(** C89, C90: discrete entropy, conditional entropy, permutation entropy. *)
From Coq Require Import Reals List ZArith Arith Lra Lia Permutation.
From Verif Require Import WStatsSpec WStatsModel MetricSpec LagSpec LagModel InfoSpec InfoModel InfoProofs InfoProofs2 InfoPropsLemmas.
Import ListNotations.
Open Scope R_scope.

(** The entropy of a column: Shannon entropy in the given base, between 0 and log(number of different values), with the
    cases of equality; unchanged by the order of the rows and by renaming the values. *)
Theorem C89_entropy : forall (A : Type) (dec : forall a b : A, {a = b} + {a <> b}) uc (l : list A) base,
  counts_ok dec uc -> l <> [] -> 1 < base ->
  let v := query_entropy uc l base true in
  v = shannon dec l / ln base /\
  0 <= v <= ln (INR (length (nodup dec l))) / ln base /\
  (v = 0 <-> forall a b, In a l -> In b l -> a = b) /\
  (v = ln (INR (length (nodup dec l))) / ln base <-> uniform dec l) /\
  (forall l', Permutation l l' -> query_entropy uc l' base true = v).
Proof. exact @entropy_thm. Qed.
Print Assumptions C89_entropy.

Theorem C89_entropy_rename : forall (A B : Type) (da : forall a b : A, {a = b} + {a <> b}) (db : forall a b : B, {a = b} + {a <> b})
  ua ub (f : A -> B) l base, counts_ok da ua -> counts_ok db ub -> l <> [] -> 1 < base ->
  (forall v w, In v l -> In w l -> f v = f w -> v = w) ->
  query_entropy ub (map f l) base true = query_entropy ua l base true.
Proof. exact @entropy_rename. Qed.
Print Assumptions C89_entropy_rename.

(** Such an oracle exists, and a column meets the hypotheses. *)
Example C89_case : counts_ok Z.eq_dec (fun l => map (count_occ Z.eq_dec l) (nodup Z.eq_dec l)) /\
  ~ uniform Z.eq_dec [1; 2; 1]%Z /\ uniform Z.eq_dec [1; 2; 2; 1]%Z.
Proof. exact entropy_case. Qed.

(** With normalize=False the counts themselves are used as probabilities: the result is not positive. *)
Theorem C89_not_normalized : forall (A : Type) (dec : forall a b : A, {a = b} + {a <> b}) uc (l : list A) base,
  counts_ok dec uc -> 1 < base -> query_entropy uc l base false <= 0.
Proof. exact @entropy_raw. Qed.
Print Assumptions C89_not_normalized.

(** Conditional entropy H(x|y): its definition, the chain rule, its range and the two extreme cases. *)
Theorem C89_cond_entropy : forall (A B : Type) (da : forall a b : A, {a = b} + {a <> b}) (db : forall a b : B, {a = b} + {a <> b})
  gb (rows : list (A * B)), groups_ok (dpair da db) gb -> rows <> [] ->
  let v := pl_conditional_entropy db gb rows in
  v = cond_entropy da db rows /\
  v = shannon (dpair da db) rows - shannon db (map snd rows) /\
  0 <= v <= shannon da (map fst rows) /\
  (v = 0 <-> determines rows) /\
  (v = shannon da (map fst rows) <-> independent da db rows).
Proof. exact @cond_thm. Qed.
Print Assumptions C89_cond_entropy.
Example C89_cond_case : determines [(1, 2); (1, 3); (1, 2)]%Z /\ ~ determines [(1, 2); (2, 2)]%Z.
Proof. exact cond_case. Qed.

(** Permutation entropy with tau = 1: the entropy of the order patterns of all windows of n_dims consecutive values. *)
Theorem C90_permutation_entropy : forall argsort uc (l : list R) d base,
  argsort_ok argsort -> counts_ok (list_eq_dec Nat.eq_dec) uc ->
  (2 <= d <= length l)%nat -> (Z.of_nat (length l) < 2 ^ 32)%Z -> 1 < base ->
  exists v ps, query_permute_entropy argsort uc (map Some l) 1 d base = Some v /\
    length ps = (length l - d + 1)%nat /\
    (forall r, (r <= length l - d)%nat -> order_pattern (firstn d (skipn r l)) (nth r ps [])) /\
    v = shannon (list_eq_dec Nat.eq_dec) ps / ln base /\
    0 <= v <= ln (INR (fact d)) / ln base /\
    (v = 0 <-> forall p q, In p ps -> In q ps -> p = q).
Proof. exact permute_thm. Qed.
Print Assumptions C90_permutation_entropy.

(** Without ties in a window it depends on the order of the values only: it is unchanged by monotone maps. *)
Theorem C90_monotone : forall argsort uc (l : list R) d base f,
  argsort_ok argsort -> counts_ok (list_eq_dec Nat.eq_dec) uc ->
  (2 <= d <= length l)%nat -> (Z.of_nat (length l) < 2 ^ 32)%Z -> tie_free l d ->
  (forall a b, In a l -> In b l -> a < b -> f a < f b) \/ (forall a b, In a l -> In b l -> a < b -> f b < f a) ->
  query_permute_entropy argsort uc (map Some (map f l)) 1 d base = query_permute_entropy argsort uc (map Some l) 1 d base.
Proof. exact permute_mono. Qed.
Print Assumptions C90_monotone.
Example C90_case : tie_free [1; 3; 2] 2 /\ exists argsort, argsort_ok argsort.
Proof. exact permute_case. Qed.

Theorem C90_rejects : forall argsort uc t tau d base, (d <= 1)%nat \/ (tau < 1)%nat ->
  query_permute_entropy argsort uc t tau d base = None.
Proof. exact permute_rejects. Qed.
Print Assumptions C90_rejects.

(** With tau = 2 the values two rows apart always increase in this series, so there is one pattern and the entropy should be
    0; the code compares neighbouring rows instead and returns one bit. *)
Theorem C90_tau_refuted : exists l : list R,
  (forall r, (r + 2 < length l)%nat -> nth r l 0 < nth (r + 2) l 0) /\
  forall argsort uc base, argsort_ok argsort -> counts_ok (list_eq_dec Nat.eq_dec) uc ->
    query_permute_entropy argsort uc (map Some l) 2 2 base = Some (ln 2 / ln base).
Proof. exact tau_refuted. Qed.
Print Assumptions C90_tau_refuted.

(** With tau = 3 and four strictly increasing values a window reaching past the end is counted as well. *)
Theorem C90_past_end_refuted : exists l : list R,
  (forall i j, (i < j < length l)%nat -> nth i l 0 < nth j l 0) /\
  forall argsort uc base, argsort_ok argsort -> counts_ok (list_eq_dec Nat.eq_dec) uc ->
    query_permute_entropy argsort uc (map Some l) 3 2 base = Some (ln 2 / ln base).
Proof. exact past_end_refuted. Qed.
Print Assumptions C90_past_end_refuted.

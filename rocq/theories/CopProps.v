(** Property C112: copula entropy, conditional independence and transfer entropy.
    Vocabulary: CopSpec.v (average ranks, complete rows, columns in the same order), KnnEntSpec.v (Kozachenko-Leonenko sum).
    [run_ok leb cols r]: r is a possible execution of the plugin on the rank columns (any interleaving, any schedule). *)
From Coq Require Import Bool List Arith ZArith Lia Reals.
From Verif Require Import Num F64 KdModel KdSpec KdProofs PyKdModel PyKdSpec KnnExprModel KnnExprSpec KnnExprProofs KnnExprPropsLemmas
  MetricSpec DigammaSpec KnnEntModel KnnEntSpec KnnEntProofs4 CopModel CopSpec CopProofs CopProofs2 CopProofs3.
Import ListNotations.
Open Scope nat_scope.

(** C112.  Minus the nearest-neighbour sum over the points of rank / length. *)
Theorem C112_copula_value : forall (X : Type) (leb : X -> X -> bool) cols h lib gamma k r,
  total_order leb -> cols <> [] -> Forall (fun c => length c = h) cols -> (Z.of_nat h <= 2 ^ 50)%Z -> (Z.of_nat (length cols) <= 2 ^ 50)%Z ->
  lib_ok f64_ops unit lib -> gamma_half_ok gamma -> run_ok leb cols r -> 1 <= k -> k < length (filter (complete cols) (seq 0 h)) ->
  exists v g pts, query_copula_entropy leb gamma lib cols (Z.of_nat k) r =
    Ok (match v with Fin h => Fin (- h) | PInf => NInf | NInf => PInf | NaN => NaN end) /\
    (0 <= g - harmonic k h <= 1 / 100000000000000)%R /\ (h <= 12 -> g = harmonic k h) /\
    length pts = h /\ (forall i, i < h -> rank_point leb cols i (nth i pts [])) /\
    kl_sum ML2 (finite_rows pts) (length cols) k h g v.
Proof. intros X leb cols h lib gamma k r TO NE LC Hh Hd. exact (copula_value leb TO cols h NE LC Hh Hd lib gamma k r). Qed.
Print Assumptions C112_copula_value.
Example C112_case : total_order Z.leb /\ lib_ok f64_ops unit (demo_lib_of unit) /\ gamma_half_ok demo_gamma /\
  run_ok Z.leb [zx; zy; zz] (demo_run Z.leb [zx; zy; zz]) /\ 2 < length (filter (complete [zx; zy; zz]) (seq 0 5)) /\
  average_rank Z.leb zx 20%Z = (5 / 2)%R /\ average_rank Z.leb zx 30%Z = 4%R.
Proof.
  split; [exact z_total|]. split; [exact (demo_lib_of_ok unit)|]. split; [exact demo_gamma_ok|]. split; [apply demo_run_ok|].
  split; [rewrite demo_complete; cbn; lia|exact demo_rank].
Qed.

(** Only the order of the values in each column matters (so any strictly increasing transformation leaves the result alone). *)
Theorem C112_copula_order : forall (X Y : Type) (leb : X -> X -> bool) (leb' : Y -> Y -> bool) gamma lib cols cols' k r,
  Forall2 (same_order leb leb') cols cols' ->
  query_copula_entropy leb gamma lib cols k r = query_copula_entropy leb' gamma lib cols' k r.
Proof. intros X Y leb leb' gamma lib cols cols' k r. exact (copula_order leb leb' gamma lib cols cols' k r). Qed.
Print Assumptions C112_copula_order.
Theorem C112_cond_order : forall (X Y : Type) (leb : X -> X -> bool) (leb' : Y -> Y -> bool) gamma lib x y z x' y' z' k r1 r2 r3,
  same_order leb leb' x x' -> same_order leb leb' y y' -> same_order leb leb' z z' ->
  query_cond_indep leb gamma lib x y z k r1 r2 r3 = query_cond_indep leb' gamma lib x' y' z' k r1 r2 r3.
Proof. intros X Y leb leb' gamma lib x y z x' y' z' k r1 r2 r3. exact (cond_order leb leb' gamma lib x y z x' y' z' k r1 r2 r3). Qed.
Print Assumptions C112_cond_order.
Example C112_order_case : same_order Z.leb Z.leb zx (map (option_map (fun v => v * 10 - 3)%Z) zx).
Proof. apply increasing_order. intros x y. destruct (Z.leb_spec x y), (Z.leb_spec (x * 10 - 3) (y * 10 - 3)); try reflexivity; lia. Qed.

(** x and y play the same role in the conditional independence statistic. *)
Theorem C112_cond_symmetric : forall (X : Type) (leb : X -> X -> bool) lib gamma x y z h k r1 r2 r3 s1 s2 s3,
  total_order leb -> lib_ok f64_ops unit lib -> gamma_half_ok gamma ->
  length x = h -> length y = h -> length z = h -> (Z.of_nat h <= 2 ^ 50)%Z -> 1 <= k -> k < length (filter (complete [x; y; z]) (seq 0 h)) ->
  run_ok leb [x; y; z] r1 -> run_ok leb [y; z] r2 -> run_ok leb [x; z] r3 ->
  run_ok leb [y; x; z] s1 -> run_ok leb [x; z] s2 -> run_ok leb [y; z] s3 ->
  query_cond_indep leb gamma lib x y z (Z.of_nat k) r1 r2 r3 = query_cond_indep leb gamma lib y x z (Z.of_nat k) s1 s2 s3.
Proof. intros X leb lib gamma x y z h k r1 r2 r3 s1 s2 s3 TO. exact (cond_sym leb TO lib gamma x y z h k r1 r2 r3 s1 s2 s3). Qed.
Print Assumptions C112_cond_symmetric.
(** It is the copula value of the three less those of the two pairs. *)
Theorem C112_cond_value : forall (X : Type) (leb : X -> X -> bool) lib gamma x y z k r1 r2 r3 a b c,
  query_copula_entropy leb gamma lib [x; y; z] k r1 = Ok (Fin a) ->
  query_copula_entropy leb gamma lib [y; z] k r2 = Ok (Fin b) ->
  query_copula_entropy leb gamma lib [x; z] k r3 = Ok (Fin c) ->
  query_cond_indep leb gamma lib x y z k r1 r2 r3 = Ok (Fin (a - b - c)).
Proof. intros X leb lib gamma x y z k r1 r2 r3 a b c. exact (cond_value leb lib gamma x y z k r1 r2 r3 a b c). Qed.
Print Assumptions C112_cond_value.
Theorem C112_few_rows : forall (X : Type) (leb : X -> X -> bool) lib gamma x y z h k r1 r2 r3,
  length x = h -> length y = h -> length z = h -> 1 <= k -> h <= k ->
  run_ok leb [x; y; z] r1 -> run_ok leb [y; z] r2 -> run_ok leb [x; z] r3 ->
  query_cond_indep leb gamma lib x y z (Z.of_nat k) r1 r2 r3 = Ok NaN.
Proof. intros X leb. exact (cond_few leb). Qed.
Print Assumptions C112_few_rows.

(** Transfer entropy compares x[i + lag] with source[i] given x[i]. *)
Theorem C112_transfer_rows : forall (X : Type) (leb : X -> X -> bool) gamma lib (x source : list (option X)) lag k r1 r2 r3,
  (1 <= lag <= Z.of_nat (length x))%Z -> (Z.of_nat (length x) < 2 ^ 32)%Z -> length source = length x ->
  let n := length x - Z.to_nat lag in
  query_transfer_entropy leb gamma lib x source lag k r1 r2 r3 =
  query_cond_indep leb gamma lib (skipn (Z.to_nat lag) x) (firstn n source) (firstn n x) k r1 r2 r3.
Proof. intros X leb. exact (transfer_rows leb). Qed.
Print Assumptions C112_transfer_rows.
(** The last lag values of the source do not matter. *)
Theorem C112_transfer_future : forall (X : Type) (leb : X -> X -> bool) gamma lib (x source source' : list (option X)) lag k r1 r2 r3,
  (1 <= lag <= Z.of_nat (length x))%Z -> (Z.of_nat (length x) < 2 ^ 32)%Z -> length source = length x -> length source' = length x ->
  firstn (length x - Z.to_nat lag) source = firstn (length x - Z.to_nat lag) source' ->
  query_transfer_entropy leb gamma lib x source lag k r1 r2 r3 = query_transfer_entropy leb gamma lib x source' lag k r1 r2 r3.
Proof. intros X leb. exact (transfer_future leb). Qed.
Print Assumptions C112_transfer_future.
(** A lag below 1 or above the length raises. *)
Theorem C112_transfer_invalid : forall (X : Type) (leb : X -> X -> bool) gamma lib (x source : list (option X)) lag k r1 r2 r3,
  ((lag < 1)%Z -> query_transfer_entropy leb gamma lib x source lag k r1 r2 r3 = Err) /\
  ((Z.of_nat (length x) < lag <= 2 ^ 32)%Z -> x <> [] -> length source = length x ->
   forall v, query_transfer_entropy leb gamma lib x source lag k r1 r2 r3 <> Ok v).
Proof. intros X leb gamma lib x source lag k r1 r2 r3. exact (conj (transfer_lag leb gamma lib x source lag k r1 r2 r3) (transfer_long leb gamma lib x source lag k r1 r2 r3)). Qed.
Print Assumptions C112_transfer_invalid.

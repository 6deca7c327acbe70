(** Proofs about null_corr. *)
From Coq Require Import String Bool List Arith ZArith Reals Lra Lia Psatz Permutation Sorted.
From Verif Require Import WStatsSpec WStatsProofs MetricSpec DiaModel DiaSpec DiaProofs DepModel DepSpec DepProofs ProfModel ProfSpec.
Import ListNotations.
Open Scope nat_scope.
Open Scope list_scope.

Definition cells2 (p q : bool) (l : list (bool * bool)) : nat := how_many (fun r => Bool.eqb (fst r) p && Bool.eqb (snd r) q) l.
Open Scope R_scope.
Lemma table_sum (g : bool * bool -> R) l : Rsum (map g l) =
  INR (cells2 true true l) * g (true, true) + INR (cells2 true false l) * g (true, false) +
  INR (cells2 false true l) * g (false, true) + INR (cells2 false false l) * g (false, false).
Proof.
  unfold cells2, how_many. induction l as [|[a b] l IH]; [cbn; ring|].
  cbn [map Rsum filter fst snd]. rewrite IH. destruct a, b; cbn [Bool.eqb andb]; cbn [length]; rewrite S_INR; ring.
Qed.
Lemma table_len l : INR (length l) = INR (cells2 true true l) + INR (cells2 true false l) + INR (cells2 false true l) + INR (cells2 false false l).
Proof.
  transitivity (Rsum (map (fun _ : bool * bool => 1) l)); [|rewrite table_sum; ring].
  induction l as [|a l IH]; [reflexivity|]. cbn [length map Rsum]. rewrite S_INR, IH; ring.
Qed.
Definition ind (b : bool) : R := if b then 1 else 0.
Lemma map_fst_comb {A B} (a : list A) (b : list B) : length a = length b -> map fst (combine a b) = a.
Proof. intro H. apply combine_map_fst; auto. Qed.
Lemma phi_alg a b c d : 0 <= a -> 0 <= b -> 0 <= c -> 0 <= d -> 0 < a + b -> 0 < c + d -> 0 < a + c -> 0 < b + d ->
  let n := a + b + c + d in let mx := (a + b) / n in let my := (a + c) / n in
  (a * ((1 - mx) * (1 - my)) + b * ((1 - mx) * (0 - my)) + c * ((0 - mx) * (1 - my)) + d * ((0 - mx) * (0 - my))) /
  (sqrt (a * ((1 - mx) * (1 - mx)) + b * ((1 - mx) * (1 - mx)) + c * ((0 - mx) * (0 - mx)) + d * ((0 - mx) * (0 - mx))) *
   sqrt (a * ((1 - my) * (1 - my)) + b * ((0 - my) * (0 - my)) + c * ((1 - my) * (1 - my)) + d * ((0 - my) * (0 - my)))) =
  (a * d - b * c) / sqrt ((a + b) * (c + d) * ((a + c) * (b + d))).
Proof.
  intros Ha Hb Hc Hd P1 P2 P3 P4 n mx my. assert (N : 0 < n) by (unfold n; lra).
  assert (E1 : a * ((1 - mx) * (1 - my)) + b * ((1 - mx) * (0 - my)) + c * ((0 - mx) * (1 - my)) + d * ((0 - mx) * (0 - my)) = (a * d - b * c) / n)
    by (unfold mx, my; unfold n in *; field; lra).
  assert (E2 : a * ((1 - mx) * (1 - mx)) + b * ((1 - mx) * (1 - mx)) + c * ((0 - mx) * (0 - mx)) + d * ((0 - mx) * (0 - mx)) = (a + b) * (c + d) / n)
    by (unfold mx; unfold n in *; field; lra).
  assert (E3 : a * ((1 - my) * (1 - my)) + b * ((0 - my) * (0 - my)) + c * ((1 - my) * (1 - my)) + d * ((0 - my) * (0 - my)) = (a + c) * (b + d) / n)
    by (unfold my; unfold n in *; field; lra).
  rewrite E1, E2, E3. assert (Q1 := Rmult_lt_0_compat _ _ P1 P2). assert (Q2 := Rmult_lt_0_compat _ _ P3 P4).
  rewrite <- sqrt_mult; [|apply Rlt_le, Rdiv_lt_0_compat; assumption|apply Rlt_le, Rdiv_lt_0_compat; assumption].
  replace ((a + b) * (c + d) / n * ((a + c) * (b + d) / n)) with ((a + b) * (c + d) * ((a + c) * (b + d)) * ((/ n) * (/ n))) by (field; lra).
  assert (I : 0 < / n) by now apply Rinv_0_lt_compat.
  rewrite sqrt_mult; [|nra|nra]. rewrite sqrt_square; [|lra].
  assert (S : 0 < sqrt ((a + b) * (c + d) * ((a + c) * (b + d)))) by (apply sqrt_lt_R0; now apply Rmult_lt_0_compat).
  field. split; lra.
Qed.

Lemma pearson_phi (x y : list bool) : length x = length y -> let l := combine x y in
  let a := cells2 true true l in let b := cells2 true false l in let c := cells2 false true l in let d := cells2 false false l in
  (0 < a + b)%nat -> (0 < c + d)%nat -> (0 < a + c)%nat -> (0 < b + d)%nat ->
  pearson (map ind x) (map ind y) = phi a b c d.
Proof.
  intros L l a b c d H1 H2 H3 H4. destruct (combine_map_fst x y L) as [Ex Ey].
  assert (LL : length l = length x) by (unfold l; rewrite combine_length; lia).
  unfold pearson.
  assert (Mx : mean (map ind x) = (INR a + INR b) / (INR a + INR b + INR c + INR d)).
  { unfold mean. rewrite map_length, <- LL, table_len. f_equal. rewrite <- Ex, map_map. fold l. rewrite table_sum. cbn [ind fst]. unfold a, b. ring. }
  assert (My : mean (map ind y) = (INR a + INR c) / (INR a + INR b + INR c + INR d)).
  { unfold mean. rewrite map_length, <- L, <- LL, table_len. f_equal. rewrite <- Ey, map_map. fold l. rewrite table_sum. cbn [ind snd]. unfold a, c. ring. }
  rewrite Mx, My. set (mx := (INR a + INR b) / _). set (my := (INR a + INR c) / _).
  assert (C : forall (f : R * R -> R), map f (combine (map ind x) (map ind y)) = map (fun r => f (ind (fst r), ind (snd r))) l).
  { intro f. unfold l. clear - L. revert y L. induction x as [|u x IH]; intros [|v y] L; try discriminate; [reflexivity|]. cbn [map combine fst snd]. rewrite IH; [reflexivity|]. now injection L. }
  assert (X : forall f, Rsum (map f (map ind x)) = Rsum (map (fun r => f (ind (fst r))) l)) by (intro f; rewrite <- Ex at 1; fold l; now rewrite !map_map).
  assert (Y : forall f, Rsum (map f (map ind y)) = Rsum (map (fun r => f (ind (snd r))) l)) by (intro f; rewrite <- Ey at 1; fold l; now rewrite !map_map).
  rewrite C, X, Y, !table_sum. cbn [ind fst snd].
  fold a b c d. unfold phi. rewrite !plus_INR.
  apply lt_INR in H1, H2, H3, H4. rewrite plus_INR in H1, H2, H3, H4. cbn [INR] in *.
  assert (G := phi_alg (INR a) (INR b) (INR c) (INR d) (pos_INR _) (pos_INR _) (pos_INR _) (pos_INR _) H1 H2 H3 H4).
  cbv zeta in G. fold mx my in G. exact G.
Qed.

Lemma pos_factor a b : 0 <= a -> 0 <= b -> 0 < a * b -> 0 < a /\ 0 < b.
Proof. intros [h|<-] [k|<-] H; split; lra. Qed.
Lemma tight A B C D : 0 <= A -> 0 <= B -> 0 <= C -> 0 <= D -> 0 < A * D - B * C ->
  (A + B) * (C + D) * ((A + C) * (B + D)) = (A * D - B * C) * (A * D - B * C) -> B = 0 /\ C = 0.
Proof.
  intros PA PB PC PD H E.
  assert (AD := Rmult_le_pos _ _ PA PD). assert (BC := Rmult_le_pos _ _ PB PC). assert (AC := Rmult_le_pos _ _ PA PC).
  assert (BD := Rmult_le_pos _ _ PB PD). assert (AB := Rmult_le_pos _ _ PA PB). assert (CD := Rmult_le_pos _ _ PC PD).
  assert (P : 0 < A * D) by lra. destruct (pos_factor _ _ PA PD P) as [A0 D0].
  assert (X1 : 0 <= (A * C + B * D) * (A * B + C * D)) by (apply Rmult_le_pos; lra).
  assert (X2 : 0 <= (B * C) * (A * C + B * D)) by (apply Rmult_le_pos; lra).
  assert (X3 : 0 <= (A * D + B * C) * (A * B + C * D)) by (apply Rmult_le_pos; lra).
  assert (X4 : 0 <= (A * D) * (B * C)) by (apply Rmult_le_pos; lra).
  assert (X5 : 0 <= (A * D) * (A * C + B * D)) by (apply Rmult_le_pos; lra).
  assert (X6 : (A * D) * (A * C + B * D) = 0).
  { assert (Y : (A * D) * (A * C + B * D) + (A * C + B * D) * (A * B + C * D) + (B * C) * (A * C + B * D) + (A * D + B * C) * (A * B + C * D) + 4 * ((A * D) * (B * C)) = 0); [|lra].
    replace 0 with ((A + B) * (C + D) * ((A + C) * (B + D)) - (A * D - B * C) * (A * D - B * C)) by lra. ring. }
  apply Rmult_integral in X6. destruct X6 as [X6|X6]; [lra|].
  assert (Z1 : A * C = 0) by lra. assert (Z2 : B * D = 0) by lra. apply Rmult_integral in Z1, Z2. destruct Z1, Z2; lra.
Qed.
Lemma phi_bounds a b c d : (0 < a + b)%nat -> (0 < c + d)%nat -> (0 < a + c)%nat -> (0 < b + d)%nat ->
  -1 <= phi a b c d <= 1 /\ (phi a b c d = 1 <-> b = 0%nat /\ c = 0%nat) /\ (phi a b c d = -1 <-> a = 0%nat /\ d = 0%nat) /\
  (phi a b c d = 0 <-> (a * (a + b + c + d) = (a + b) * (a + c))%nat).
Proof.
  intros H1 H2 H3 H4. unfold phi. rewrite !plus_INR.
  pose proof (pos_INR a) as Pa. pose proof (pos_INR b) as Pb. pose proof (pos_INR c) as Pc. pose proof (pos_INR d) as Pd.
  assert (Ra : INR a = 0 <-> a = 0%nat) by (split; [intro; now apply INR_eq|now intros ->]).
  assert (Rb : INR b = 0 <-> b = 0%nat) by (split; [intro; now apply INR_eq|now intros ->]).
  assert (Rc : INR c = 0 <-> c = 0%nat) by (split; [intro; now apply INR_eq|now intros ->]).
  assert (Rd : INR d = 0 <-> d = 0%nat) by (split; [intro; now apply INR_eq|now intros ->]).
  assert (R0 : INR a * INR d - INR b * INR c = 0 <-> (a * (a + b + c + d) = (a + b) * (a + c))%nat).
  { split; [intro E; apply INR_eq; rewrite !mult_INR, !plus_INR; nra|intro E; apply (f_equal INR) in E; rewrite !mult_INR, !plus_INR in E; nra]. }
  apply lt_INR in H1, H2, H3, H4. rewrite plus_INR in H1, H2, H3, H4. cbn [INR] in *.
  rewrite <- Ra, <- Rb, <- Rc, <- Rd, <- R0. clear Ra Rb Rc Rd R0.
  set (A := INR a) in *. set (B := INR b) in *. set (C := INR c) in *. set (D := INR d) in *. clearbody A B C D.
  set (P := (A + B) * (C + D)). set (Q := (A + C) * (B + D)). set (T := A * D - B * C).
  assert (Pp : 0 < P) by (unfold P; now apply Rmult_lt_0_compat). assert (Qp : 0 < Q) by (unfold Q; now apply Rmult_lt_0_compat).
  assert (PQ : 0 < P * Q) by now apply Rmult_lt_0_compat.
  assert (S : 0 < sqrt (P * Q)) by now apply sqrt_lt_R0.
  assert (SS : sqrt (P * Q) * sqrt (P * Q) = P * Q) by (apply sqrt_sqrt; lra).
  assert (AD : 0 <= A * D) by nra. assert (BC : 0 <= B * C) by nra. assert (AC : 0 <= A * C) by nra. assert (BD : 0 <= B * D) by nra.
  assert (AB : 0 <= A * B) by nra. assert (CD : 0 <= C * D) by nra.
  assert (EP : P = A * D + B * C + A * C + B * D) by (unfold P; ring).
  assert (EQ : Q = A * D + B * C + A * B + C * D) by (unfold Q; ring).
  set (r := sqrt (P * Q)) in *.
  assert (TT : T * T <= P * Q).
  { apply Rle_trans with ((A * D + B * C) * (A * D + B * C)); [unfold T; nra|]. apply Rmult_le_compat; nra. }
  assert (Hb : - r <= T <= r) by (split; nra).
  assert (D1 : T / r = 1 <-> T = r) by (split; [intro E; apply (f_equal (fun z => z * r)) in E; unfold Rdiv in E; rewrite Rmult_assoc, Rinv_l in E; lra|intros ->; field; lra]).
  assert (D2 : T / r = -1 <-> T = - r) by (split; [intro E; apply (f_equal (fun z => z * r)) in E; unfold Rdiv in E; rewrite Rmult_assoc, Rinv_l in E; lra|intros ->; field; lra]).
  assert (D0 : T / r = 0 <-> T = 0) by (split; [intro E; apply (f_equal (fun z => z * r)) in E; unfold Rdiv in E; rewrite Rmult_assoc, Rinv_l in E; lra|intros ->; unfold Rdiv; ring]).
  split; [|split; [|split]].
  - split; [apply (Rmult_le_reg_r r); [assumption|]|apply (Rmult_le_reg_r r); [assumption|]]; unfold Rdiv; rewrite Rmult_assoc, Rinv_l; lra.
  - rewrite D1. split.
    + intro E. apply (tight A B C D); try assumption; [fold T; lra|]. fold P Q T. rewrite E. lra.
    + intros [-> ->]. unfold r, P, Q, T. replace ((A + 0) * (0 + D) * ((A + 0) * (0 + D))) with ((A * D) * (A * D)) by ring. rewrite sqrt_square; lra.
  - rewrite D2. split.
    + intro E. apply (tight B A D C); try assumption; [unfold T in E; lra|].
      replace (B * C - A * D) with (- T) by (unfold T; ring). replace ((B + A) * (D + C) * ((B + D) * (A + C))) with (P * Q) by (unfold P, Q; ring). rewrite E. lra.
    + intros [-> ->]. unfold r, P, Q, T. replace ((0 + B) * (C + 0) * ((0 + C) * (B + 0))) with ((B * C) * (B * C)) by ring. rewrite sqrt_square; lra.
  - exact D0.
Qed.

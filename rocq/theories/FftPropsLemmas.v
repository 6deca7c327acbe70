From Coq Require Import Reals List Arith Lia Lra Permutation.
From Coquelicot Require Import Complex.
From Verif Require Import FftSpec FftModel FftProofs.
Import ListNotations.
Open Scope R_scope.

Lemma convolve_lengths (x : list (option R)) fill kernel mode method par out :
  let k := length (flat_map (fun o : option R => match o with Some a => [a] | None => [] end) kernel) in
  (forall y, sched_ok (par y) (length y - k + 1)) ->
  convolve x fill kernel mode method par = Some out ->
  length out = match mode with FULL => length x + k - 1 | SAME | LEFT | RIGHT => length x | VALID => length x - k + 1 end%nat.
Proof.
  intros k SK E. destruct (Nat.lt_ge_cases k 2) as [B|B]; [rewrite convolve_err in E by (left; exact B); discriminate|].
  destruct (Nat.lt_ge_cases (length x) k) as [B'|B']; [rewrite convolve_err in E by (right; exact B'); discriminate|].
  rewrite convolve_ok in E; [|rewrite map_length; fold k; lia|exact SK]. injection E as <-. rewrite !map_length. fold k.
  destruct mode; cbn [mode_range]; apply seq_length.
Qed.
Lemma conv_case method : convolve [Some 1; None; Some 3] 2 [Some 1; None; Some 10] FULL method (fun _ => None) = Some [1; 12; 23; 30].
Proof.
  rewrite convolve_ok; [|cbn; lia|intros y; exact I]. cbn -[IZR]. unfold conv. cbn -[IZR]. apply f_equal. repeat (apply (f_equal2 cons)); try reflexivity; ring.
Qed.
Lemma sched_case (y : list R) : sched_ok (Some (rev (seq 0 (length y - 2 + 1)))) (length y - 2 + 1).
Proof. cbn. symmetry. apply Permutation_rev. Qed.

Lemma fit_spec n x : fit_length n x = map (fun i => nth i x 0) (seq 0 n).
Proof.
  apply (nth_ext _ _ 0 0); [now rewrite fit_len, map_length, seq_length|]. intros i Hi. rewrite fit_len in Hi.
  rewrite fit_nth by exact Hi. now rewrite (nth_map_seq (fun i => nth i x 0)).
Qed.
Lemma rfft_spec v n full : (0 < match n with Some n => n | None => length v end)%nat ->
  let m := match n with Some n => n | None => length v end in
  rfft (map Some v) n full = Some (map (dft (map (fun i => nth i v 0) (seq 0 m))) (seq 0 (if full then m else m / 2 + 1))).
Proof. intros P m. rewrite <- fit_spec. now apply rfft_ok. Qed.
Lemma rfft_null s n full : In None s -> rfft s n full = None.
Proof. intros H. unfold rfft. now rewrite no_nulls_err. Qed.
Lemma dft_inverse x i : (i < length x)%nat ->
  csum (fun k => Cmult (dft x k) (cis (2 * PI * INR k * INR i / INR (length x)))) (length x) = RtoC (INR (length x) * nth i x 0).
Proof.
  intros Hi. set (n := length x) in *. assert (Pn : 0 < INR n) by (apply lt_0_INR; lia).
  set (e := 1 :: repeat 0 (n - 1)). assert (Le : length e = length x) by (unfold e; cbn; rewrite repeat_length; fold n; lia).
  assert (Ne : forall j, nth (S j) e 0 = 0) by (intros j; unfold e; cbn; apply nth_repeat).
  assert (De : forall k, dft e k = RtoC 1).
  { intros k. unfold dft. rewrite Le. fold n. rewrite (csum_pick _ n 0%nat); [|lia|intros [|j] _ Hj; [lia|rewrite Ne; ring]].
    unfold e. cbn [nth]. transitivity (Cmult (RtoC 1) (RtoC 1)); [|ring]. f_equal. rewrite <- cis_0. f_equal. cbn. field. lra. }
  pose proof (dft_product x e i Le ltac:(fold n; lia) Hi) as P. cbv zeta in P. fold n in P.
  transitivity (csum (fun k => Cmult (Cmult (dft x k) (dft e k)) (cis (2 * PI * INR k * INR i / INR n))) n).
  { apply csum_ext. intros k _. rewrite De. ring. }
  rewrite P. f_equal. f_equal. rewrite (rsum_more _ 1 n); [|lia|intros [|j] Hj; [lia|rewrite Ne; ring]].
  cbn. rewrite Nat.sub_0_r. ring.
Qed.
Lemma cis_quarter : cis (PI / 2) = (0, 1).
Proof. unfold cis. now rewrite cos_PI2, sin_PI2. Qed.
Lemma rfft_case : rfft [Some 1; Some 2; Some 4; Some 8] None true = Some [(15, 0); (-3, 6); (-5, 0); (-3, -6)].
Proof.
  transitivity (rfft (map Some [1; 2; 4; 8]) None true); [reflexivity|]. rewrite (rfft_spec [1; 2; 4; 8] None true ltac:(cbn; lia)). f_equal.
  assert (K : forall m, cis (- (PI / 2 * INR m)) = Cconj (Cpow (0, 1) m)).
  { intros m. rewrite <- cis_conj, <- cis_quarter, <- cis_pow. do 2 f_equal. ring. }
  assert (D : forall k, dft [1; 2; 4; 8] k = csum (fun m => Cmult (RtoC (nth m [1; 2; 4; 8] 0)) (Cconj (Cpow (0, 1) (k * m)))) 4).
  { intros k. unfold dft. cbn [length]. apply csum_ext. intros m _. rewrite <- K. do 2 f_equal. rewrite mult_INR. cbn. field. }
  cbn [length seq map nth]. rewrite !D. unfold csum, Cpow, RtoC, Cconj, Cmult, Cplus. cbn -[IZR].
  repeat (apply (f_equal2 cons)); try reflexivity; apply (f_equal2 pair); ring.
Qed.

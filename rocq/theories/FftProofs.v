From Coq Require Import Reals List Arith Bool Lia Lra.
From Coquelicot Require Import Complex.
From Coq Require Import Permutation.
From Verif Require Import FftSpec FftModel PyKdModel PyKdProofs.
Import ListNotations.
Open Scope R_scope.

(** ** Sums *)
Lemma rsum_ext f g n : (forall j, (j < n)%nat -> f j = g j) -> rsum f n = rsum g n.
Proof. induction n as [|n IH]; intros H; cbn; [reflexivity|]. rewrite IH, H; auto. Qed.
Lemma rsum_zero n : rsum (fun _ => 0) n = 0.
Proof. induction n as [|n IH]; cbn; [reflexivity|]. rewrite IH. ring. Qed.
Lemma rsum_more f n m : (n <= m)%nat -> (forall j, (n <= j)%nat -> f j = 0) -> rsum f m = rsum f n.
Proof. intros L H. induction L as [|m L IH]; [reflexivity|]. cbn. rewrite IH, H by lia. ring. Qed.
Lemma rsum_first f n : rsum f (S n) = f 0%nat + rsum (fun j => f (S j)) n.
Proof. induction n as [|n IH]; cbn in *; [ring|]. rewrite IH. ring. Qed.
Lemma rsum_rev f n : rsum f n = rsum (fun j => f (n - 1 - j)%nat) n.
Proof.
  revert f. induction n as [|n IH]; intros f; [reflexivity|]. rewrite rsum_first, (IH (fun j => f (S j))). cbn [rsum].
  replace (S n - 1 - n)%nat with 0%nat by lia. rewrite Rplus_comm. f_equal. apply rsum_ext. intros j Hj. f_equal. lia.
Qed.
Lemma csum_ext f g n : (forall j, (j < n)%nat -> f j = g j) -> csum f n = csum g n.
Proof. induction n as [|n IH]; intros H; cbn; [reflexivity|]. rewrite IH, H; auto. Qed.
Lemma csum_zero n : csum (fun _ => RtoC 0) n = RtoC 0.
Proof. induction n as [|n IH]; cbn; [reflexivity|]. rewrite IH. ring. Qed.
Lemma csum_add f g n : csum (fun j => Cplus (f j) (g j)) n = Cplus (csum f n) (csum g n).
Proof. induction n as [|n IH]; cbn; [ring|]. rewrite IH. ring. Qed.
Lemma csum_mult_l c f n : Cmult c (csum f n) = csum (fun j => Cmult c (f j)) n.
Proof. induction n as [|n IH]; cbn; [ring|]. rewrite <- IH. ring. Qed.
Lemma csum_mult_r c f n : Cmult (csum f n) c = csum (fun j => Cmult (f j) c) n.
Proof. induction n as [|n IH]; cbn; [ring|]. rewrite <- IH. ring. Qed.
Lemma csum_swap f n m : csum (fun i => csum (fun j => f i j) m) n = csum (fun j => csum (fun i => f i j) n) m.
Proof.
  induction n as [|n IH]; cbn; [now rewrite csum_zero|]. rewrite IH, csum_add. reflexivity.
Qed.
Lemma Cplus_conj a b : Cconj (Cplus a b) = Cplus (Cconj a) (Cconj b).
Proof. unfold Cconj, Cplus. cbn. f_equal. ring. Qed.
Lemma Cmult_conj a b : Cconj (Cmult a b) = Cmult (Cconj a) (Cconj b).
Proof. unfold Cconj, Cmult. cbn. f_equal; ring. Qed.
Lemma csum_conj f n : Cconj (csum f n) = csum (fun j => Cconj (f j)) n.
Proof.
  induction n as [|n IH]; cbn; [unfold Cconj, RtoC; cbn; f_equal; ring|]. rewrite Cplus_conj, IH. reflexivity.
Qed.
Lemma csum_pick f n a : (a < n)%nat -> (forall j, (j < n)%nat -> j <> a -> f j = RtoC 0) -> csum f n = f a.
Proof.
  intros L H. induction n as [|n IH]; [lia|]. cbn. destruct (Nat.eq_dec a n) as [->|Ne].
  - rewrite (csum_ext f (fun _ => RtoC 0)), csum_zero; [ring|]. intros j Hj. apply H; lia.
  - rewrite IH; [rewrite (H n) by lia; ring|lia|]. intros j Hj. apply H. lia.
Qed.
Lemma Re_csum f n : Re (csum f n) = rsum (fun j => Re (f j)) n.
Proof. induction n as [|n IH]; cbn; [reflexivity|]. rewrite <- IH. reflexivity. Qed.

(** ** Roots of unity *)
Lemma cis_add a b : cis (a + b) = Cmult (cis a) (cis b).
Proof. unfold cis, Cmult. cbn. rewrite cos_plus, sin_plus. f_equal; ring. Qed.
Lemma cis_0 : cis 0 = RtoC 1.
Proof. unfold cis, RtoC. now rewrite cos_0, sin_0. Qed.
Lemma cis_conj a : Cconj (cis a) = cis (- a).
Proof. unfold cis, Cconj. cbn. now rewrite cos_neg, sin_neg. Qed.
Lemma cis_period a (k : nat) : cis (a + 2 * INR k * PI) = cis a.
Proof. unfold cis. now rewrite cos_period, sin_period. Qed.
Lemma cis_period_neg a (k : nat) : cis (a - 2 * INR k * PI) = cis a.
Proof. rewrite <- (cis_period (a - 2 * INR k * PI) k). f_equal. ring. Qed.
Lemma cis_not_1 a : 0 < a < 2 * PI -> cis a <> RtoC 1.
Proof.
  intros [L U] E. unfold cis, RtoC in E. injection E as Ec Es. apply sin_eq_0_0 in Es. destruct Es as (k & Ek).
  assert (K : k = 1%Z).
  { pose proof PI_RGT_0 as P. subst a. assert (0 < IZR k) by nra. assert (IZR k < 2) by nra.
    apply lt_IZR in H. apply (lt_IZR k 2) in H0. lia. }
  subst k. rewrite Ek, Rmult_1_l, cos_PI in Ec. lra.
Qed.
Fixpoint Cpow (z : C) (k : nat) : C := match k with O => RtoC 1 | S k' => Cmult z (Cpow z k') end.
Lemma cis_pow a k : cis (INR k * a) = Cpow (cis a) k.
Proof.
  induction k as [|k IH]; [cbn; rewrite Rmult_0_l; apply cis_0|]. rewrite S_INR, Rmult_plus_distr_r, cis_add, IH, Rmult_1_l. cbn [Cpow]. ring.
Qed.
Lemma geo_sum z n : Cmult (csum (fun k => Cpow z k) n) (Cminus z (RtoC 1)) = Cminus (Cpow z n) (RtoC 1).
Proof.
  induction n as [|n IH]; cbn [csum Cpow]; [ring|].
  transitivity (Cplus (Cmult (csum (fun k => Cpow z k) n) (Cminus z (RtoC 1))) (Cmult (Cpow z n) (Cminus z (RtoC 1)))); [ring|].
  rewrite IH. ring.
Qed.
(** Sum of e^(2 pi i k d / n) over k < n: n if n divides d, else 0. *)
Lemma roots_sum n d : (0 < d < n)%nat -> csum (fun k => cis (2 * PI * INR k * INR d / INR n)) n = RtoC 0.
Proof.
  intros [L U]. assert (Pn : 0 < INR n) by (apply lt_0_INR; lia). assert (Pd : 0 < INR d) by (apply lt_0_INR; lia).
  assert (Ud : INR d < INR n) by now apply lt_INR. pose proof PI_RGT_0 as PP.
  set (a := 2 * PI * INR d / INR n).
  assert (E : csum (fun k => cis (2 * PI * INR k * INR d / INR n)) n = csum (fun k => Cpow (cis a) k) n).
  { apply csum_ext. intros k _. rewrite <- cis_pow. f_equal. unfold a. field. lra. }
  rewrite E. assert (A : 0 < a < 2 * PI).
  { unfold a. split; [apply Rdiv_lt_0_compat; [|exact Pn]; nra|]. apply (Rmult_lt_reg_r (INR n)); [exact Pn|]. unfold Rdiv. rewrite Rmult_assoc, Rinv_l, Rmult_1_r by lra. nra. }
  pose proof (geo_sum (cis a) n) as G.
  assert (W : Cpow (cis a) n = RtoC 1).
  { rewrite <- cis_pow, <- cis_0. replace (INR n * a) with (0 + 2 * INR d * PI) by (unfold a; field; lra). apply cis_period. }
  rewrite W in G. apply cis_not_1 in A.
  destruct (Ceq_dec (csum (fun k => Cpow (cis a) k) n) (RtoC 0)) as [Z|Z]; [exact Z|]. exfalso.
  assert (Y : Cminus (cis a) (RtoC 1) <> RtoC 0).
  { intros C0. apply A. transitivity (Cplus (Cminus (cis a) (RtoC 1)) (RtoC 1)); [ring|]. rewrite C0. ring. }
  apply (Cmult_neq_0 _ _ Z Y). rewrite G. ring.
Qed.

(** ** The transform *)
Lemma dft_conj x k : (k <= length x)%nat -> (0 < length x)%nat -> Cconj (dft x (length x - k)) = dft x k.
Proof.
  intros L Pn. set (n := length x) in *. unfold dft. fold n. rewrite csum_conj. apply csum_ext. intros m Hm.
  rewrite Cmult_conj, cis_conj, Ropp_involutive. f_equal; [unfold Cconj, RtoC; cbn; f_equal; ring|].
  rewrite <- (cis_period_neg _ m). f_equal. rewrite minus_INR by lia. assert (0 < INR n) by (apply lt_0_INR; lia). field. lra.
Qed.
Lemma r2c_length x : length (r2c x) = (length x / 2 + 1)%nat.
Proof. unfold r2c. now rewrite map_length, seq_length. Qed.
Lemma half_bound n : (n / 2 * 2 <= n /\ n < n / 2 * 2 + 2)%nat.
Proof. pose proof (Nat.div_mod n 2 ltac:(lia)). pose proof (Nat.mod_upper_bound n 2 ltac:(lia)). lia. Qed.
Lemma nth_map_seq {A} (f : nat -> A) n k d : (k < n)%nat -> nth k (map f (seq 0 n)) d = f k.
Proof. intros H. rewrite (nth_indep _ d (f 0%nat)) by (now rewrite map_length, seq_length). rewrite map_nth, seq_nth by exact H. reflexivity. Qed.
Lemma rev_map_seq {A} (f : nat -> A) n : rev (map f (seq 0 n)) = map (fun i => f (n - 1 - i)%nat) (seq 0 n).
Proof.
  induction n as [|n IH]; [reflexivity|]. transitivity (rev (map f (seq 0 n ++ [n]))); [now rewrite seq_S|].
  rewrite map_app, rev_app_distr, IH. cbn [map rev app Nat.add seq].
  apply f_equal2; [f_equal; lia|]. rewrite <- seq_shift, map_map. apply map_ext. intros i. f_equal. lia.
Qed.
Lemma firstn_map_seq {A} (f : nat -> A) a n k : (k <= n)%nat -> firstn k (map f (seq a n)) = map f (seq a k).
Proof.
  intros H. replace n with (k + (n - k))%nat by lia. rewrite seq_app, map_app, firstn_app, map_length, seq_length, Nat.sub_diag, firstn_O, app_nil_r.
  apply firstn_all2. rewrite map_length, seq_length. lia.
Qed.
Lemma skipn_map_seq {A} (f : nat -> A) a n k : (k <= n)%nat -> skipn k (map f (seq a n)) = map f (seq (a + k) (n - k)).
Proof.
  intros H. replace n with (k + (n - k))%nat at 1 by lia. rewrite seq_app, map_app, skipn_app, map_length, seq_length, Nat.sub_diag. cbn [skipn].
  rewrite skipn_all2; [reflexivity|]. rewrite map_length, seq_length. lia.
Qed.
Lemma fit_len n x : length (fit_length n x) = n.
Proof.
  unfold fit_length. destruct (Nat.ltb_spec (length x) n); [rewrite app_length, repeat_length; lia|]. rewrite firstn_length. lia.
Qed.
Lemma fit_nth n x m : (m < n)%nat -> nth m (fit_length n x) 0 = nth m x 0.
Proof.
  intros H. unfold fit_length. destruct (Nat.ltb_spec (length x) n) as [L|L].
  - destruct (Nat.lt_ge_cases m (length x)) as [M|M]; [now rewrite app_nth1|]. rewrite app_nth2, nth_repeat by exact M. now rewrite nth_overflow.
  - rewrite <- (firstn_skipn n x) at 2. rewrite app_nth1; [reflexivity|]. rewrite firstn_length. lia.
Qed.
Lemma no_nulls_ok v : no_nulls (map Some v) = Some v.
Proof. induction v as [|a v IH]; cbn; [reflexivity|]. now rewrite IH. Qed.
Lemma no_nulls_err s : In None s -> no_nulls s = None.
Proof.
  induction s as [|[a|] s IH]; intros H; [destruct H| |reflexivity]. destruct H as [H|H]; [discriminate|]. cbn. now rewrite IH.
Qed.
(** The mirrored half completes the transform. *)
Lemma mirror_ok x : (0 < length x)%nat ->
  r2c x ++ (if (length x mod 2 =? 0)%nat then map Cconj (firstn (abs_diff (length x / 2) 1) (skipn 1 (rev (r2c x))))
            else map Cconj (firstn (length x / 2) (rev (r2c x)))) = map (dft x) (seq 0 (length x)).
Proof.
  intros Pn. set (n := length x). pose proof (half_bound n) as [H1 H2]. unfold r2c. fold n. set (h := (n / 2)%nat) in *.
  rewrite rev_map_seq. pose proof (Nat.div_mod n 2 ltac:(lia)) as DM. fold h in DM. pose proof (Nat.mod_upper_bound n 2 ltac:(lia)) as MB.
  assert (C : forall k, (h < k < n)%nat -> Cconj (dft x (n - k)) = dft x k) by (intros k Hk; apply dft_conj; [fold n; lia|exact Pn]). fold n in Pn.
  assert (G : forall k b a, seq (b + a) k = map (fun i => (b + i)%nat) (seq a k)).
  { clear. induction k as [|k IH]; intros b a; [reflexivity|]. cbn. f_equal. replace (S (b + a)) with (b + S a)%nat by lia. apply IH. }
  assert (SP : seq 0 n = seq 0 (h + 1) ++ map (fun i => (h + 1 + i)%nat) (seq 0 (n - (h + 1)))).
  { rewrite <- G, Nat.add_0_r. pose proof (seq_app (h + 1) (n - (h + 1)) 0) as SA. cbn [Nat.add] in SA. rewrite <- SA. f_equal. lia. }
  rewrite SP, map_app, map_map. apply f_equal2; [reflexivity|].
  destruct (Nat.eqb_spec (n mod 2) 0) as [E|E].
  - rewrite E in DM. unfold abs_diff. rewrite skipn_map_seq, firstn_map_seq, map_map by lia.
    change (0 + 1)%nat with (1 + 0)%nat. rewrite G, map_map. replace (n - (h + 1))%nat with (h - 1 + (1 - h))%nat by lia.
    apply map_ext_in. intros i Hi. apply in_seq in Hi. rewrite <- (C (h + 1 + i)%nat) by lia. do 2 f_equal. lia.
  - assert (E1 : (n mod 2 = 1)%nat) by lia. rewrite E1 in DM. rewrite firstn_map_seq, map_map by lia. replace (n - (h + 1))%nat with h by lia.
    apply map_ext_in. intros i Hi. apply in_seq in Hi. rewrite <- (C (h + 1 + i)%nat) by lia. do 2 f_equal. lia.
Qed.
Theorem rfft_ok v n full : (0 < match n with Some n => n | None => length v end)%nat ->
  let m := match n with Some n => n | None => length v end in
  rfft (map Some v) n full = Some (map (dft (fit_length m v)) (seq 0 (if full then m else m / 2 + 1))).
Proof.
  intros Pn. cbv zeta. unfold rfft. rewrite no_nulls_ok. set (m := match n with Some n => n | None => length v end) in *. f_equal.
  pose proof (fit_len m v) as L. destruct full.
  - rewrite mirror_ok by (rewrite L; exact Pn). now rewrite L.
  - unfold r2c. now rewrite L.
Qed.

(** ** Convolution *)
Lemma dot_rsum a : forall b, length a = length b -> dot a b = rsum (fun m => nth m a 0 * nth m b 0) (length a).
Proof.
  induction a as [|x a IH]; intros [|y b] L; cbn [length] in L; try discriminate; [reflexivity|].
  cbn [dot length]. rewrite rsum_first, IH by lia. reflexivity.
Qed.
Lemma nth_firstn_skipn (x : list R) i k m : (m < k)%nat -> nth m (firstn k (skipn i x)) 0 = nth (i + m) x 0.
Proof.
  intros H. revert i. induction x as [|a x IH]; intros i.
  - rewrite skipn_nil, firstn_nil. destruct (i + m)%nat, m; reflexivity.
  - destruct i as [|i]; cbn [skipn].
    + cbn [Nat.add]. clear IH. revert m H. generalize (a :: x) as l. clear. induction k as [|k IH]; intros l m H; [lia|].
      destruct l as [|b l]; [reflexivity|]. destruct m as [|m]; [reflexivity|]. cbn. apply IH. lia.
    + rewrite IH. reflexivity.
Qed.
(** The convolution sum limited to the length of the kernel. *)
Lemma conv_kernel x h i : conv x h i = rsum (fun j => if (j <=? i)%nat then nth j h 0 * nth (i - j) x 0 else 0) (length h).
Proof.
  unfold conv. set (f := fun j => if (j <=? i)%nat then nth j h 0 * nth (i - j) x 0 else 0).
  assert (E : rsum (fun j => nth j h 0 * nth (i - j) x 0) (S i) = rsum f (S i)).
  { apply rsum_ext. intros j Hj. unfold f. rewrite (proj2 (Nat.leb_le j i)) by lia. reflexivity. }
  rewrite E. transitivity (rsum f (Nat.max (S i) (length h))).
  - symmetry. apply rsum_more; [lia|]. intros j Hj. unfold f. rewrite (proj2 (Nat.leb_gt j i)) by lia. reflexivity.
  - apply rsum_more; [lia|]. intros j Hj. unfold f. rewrite (nth_overflow h) by lia. destruct (j <=? i)%nat; ring.
Qed.
Lemma conv_far x h i : (length h - 1 <= i)%nat -> conv x h i = rsum (fun j => nth j h 0 * nth (i - j) x 0) (length h).
Proof. intros L. rewrite conv_kernel. apply rsum_ext. intros j Hj. rewrite (proj2 (Nat.leb_le j i)) by lia. reflexivity. Qed.

(** What both methods compute for VALID. *)
Definition valid_spec (x h : list R) : list R := map (conv x h) (seq (length h - 1) (length x - length h + 1)).

Lemma par_same par k x : sched_ok par (length x - length k + 1) -> valid_direct par x k = valid_direct None x k.
Proof.
  destruct par as [s|]; [|reflexivity]. cbn [sched_ok]. intros P. unfold valid_direct.
  rewrite par_map_seq by (unfold windows; rewrite map_length, seq_length; exact P).
  assert (T : forall w, traverse (fun sl => Some (dot k sl)) w = Some (map (dot k) w)).
  { induction w as [|a w IH]; [reflexivity|]. cbn. now rewrite IH. }
  now rewrite T.
Qed.
Lemma valid_direct_ok par x h : (1 <= length h <= length x)%nat -> sched_ok par (length x - length h + 1) -> valid_direct par x (rev h) = valid_spec x h.
Proof.
  intros L SK. rewrite par_same by (rewrite rev_length; exact SK). unfold valid_direct, windows, valid_spec. rewrite rev_length, map_map.
  assert (G : forall k b a, seq (b + a) k = map (fun i => (b + i)%nat) (seq a k)).
  { clear. induction k as [|k IH]; intros b a; [reflexivity|]. cbn. f_equal. replace (S (b + a)) with (b + S a)%nat by lia. apply IH. }
  replace (length h - 1)%nat with (length h - 1 + 0)%nat at 1 by lia. rewrite G, map_map. apply map_ext_in. intros i Hi. apply in_seq in Hi.
  rewrite dot_rsum by (rewrite rev_length, firstn_length, skipn_length; lia). rewrite rev_length, conv_far by lia.
  rewrite rsum_rev. apply rsum_ext. intros j Hj. rewrite rev_nth by lia. rewrite nth_firstn_skipn by lia. f_equal; f_equal; lia.
Qed.

(** The circular convolution theorem. *)
Lemma dft_any x n k : n = length x -> dft x k = csum (fun m => Cmult (RtoC (nth m x 0)) (cis (- (2 * PI * INR k * INR m / INR n)))) n.
Proof. now intros ->. Qed.
Lemma RtoC_rsum f n : RtoC (rsum f n) = csum (fun j => RtoC (f j)) n.
Proof. induction n as [|n IH]; cbn; [reflexivity|]. rewrite RtoC_plus, IH. reflexivity. Qed.
Lemma roots_pick n d : (0 < n)%nat -> (d < 2 * n)%nat -> csum (fun k => cis (2 * PI * INR k * INR d / INR n)) n = if ((d =? 0) || (d =? n))%nat then RtoC (INR n) else RtoC 0.
Proof.
  intros Pn Hd. assert (Pn' : 0 < INR n) by (apply lt_0_INR; lia).
  assert (One : forall m, csum (fun _ => RtoC 1) m = RtoC (INR m)).
  { induction m as [|m IH]; [reflexivity|]. cbn [csum]. rewrite IH, S_INR, RtoC_plus. reflexivity. }
  destruct (Nat.eqb_spec d 0) as [->|N0]; cbn [orb].
  - rewrite <- One. apply csum_ext. intros k _. rewrite <- cis_0. f_equal. cbn. field. lra.
  - destruct (Nat.eqb_spec d n) as [->|Nn].
    + rewrite <- One. apply csum_ext. intros k _. rewrite <- cis_0, <- (cis_period 0 k). f_equal. field. lra.
    + destruct (Nat.lt_ge_cases d n) as [Lt|Ge]; [apply roots_sum; lia|].
      rewrite <- (roots_sum n (d - n)) by lia. apply csum_ext. intros k _. rewrite <- (cis_period_neg _ k). f_equal. rewrite minus_INR by lia. field. lra.
Qed.
Lemma dft_product x h i : let n := length x in length h = n -> (0 < n)%nat -> (i < n)%nat ->
  csum (fun k => Cmult (Cmult (dft x k) (dft h k)) (cis (2 * PI * INR k * INR i / INR n))) n =
  RtoC (INR n * rsum (fun j => nth j h 0 * nth (if (j <=? i)%nat then i - j else n + i - j) x 0) n).
Proof.
  intros n Lh Pn Hi. assert (Pn' : 0 < INR n) by (apply lt_0_INR; lia).
  transitivity (csum (fun j => Cmult (RtoC (nth j h 0)) (csum (fun m => Cmult (RtoC (nth m x 0))
     (csum (fun k => cis (2 * PI * INR k * INR i / INR n + - (2 * PI * INR k * INR m / INR n) + - (2 * PI * INR k * INR j / INR n))) n)) n)) n).
  - transitivity (csum (fun k => csum (fun j => csum (fun m => Cmult (RtoC (nth j h 0)) (Cmult (RtoC (nth m x 0)) 
       (cis (2 * PI * INR k * INR i / INR n + - (2 * PI * INR k * INR m / INR n) + - (2 * PI * INR k * INR j / INR n))))) n) n) n).
    + apply csum_ext. intros k _. rewrite (dft_any x n k eq_refl), (dft_any h n k (eq_sym Lh)).
      rewrite csum_mult_l, csum_mult_r. apply csum_ext. intros j _. rewrite csum_mult_r, csum_mult_r. apply csum_ext. intros m _.
      rewrite !cis_add. ring.
    + rewrite csum_swap. apply csum_ext. intros j _. rewrite csum_swap. rewrite csum_mult_l. apply csum_ext. intros m _.
      rewrite csum_mult_l, csum_mult_l. apply csum_ext. intros k _. reflexivity.
  - rewrite RtoC_mult, RtoC_rsum, csum_mult_l. apply csum_ext. intros j Hj.
    set (m0 := if (j <=? i)%nat then (i - j)%nat else (n + i - j)%nat).
    assert (M0 : (m0 < n)%nat) by (unfold m0; destruct (Nat.leb_spec j i); lia).
    rewrite (csum_pick _ n m0 M0).
    + rewrite RtoC_mult. replace (csum _ n) with (RtoC (INR n)); [ring|]. symmetry.
      rewrite <- (roots_pick n 0 Pn ltac:(lia)) at 1. cbn [Nat.eqb orb]. apply csum_ext. intros k _. unfold m0. destruct (Nat.leb_spec j i) as [Lj|Lj].
      * f_equal. rewrite minus_INR by lia. cbn. field. lra.
      * rewrite <- (cis_period _ k). f_equal. rewrite minus_INR, plus_INR by lia. cbn. field. lra.
    + intros m Hm Ne. replace (csum _ n) with (RtoC 0); [ring|]. symmetry.
      set (d := (2 * n + i - m - j)%nat).
      transitivity (csum (fun k => cis (2 * PI * INR k * INR (if (d <? 2 * n)%nat then d else d - 2 * n)%nat / INR n)) n).
      * apply csum_ext. intros k _. unfold d. destruct (Nat.ltb_spec (2 * n + i - m - j) (2 * n)) as [B|B].
        -- rewrite <- (cis_period _ (k + k)). f_equal. rewrite !minus_INR, !plus_INR, mult_INR by lia. cbn. field. lra.
        -- f_equal. rewrite !minus_INR, !plus_INR, mult_INR by lia. cbn. field. lra.
      * rewrite roots_pick; [|exact Pn|destruct (Nat.ltb_spec d (2 * n)); unfold d in *; lia].
        replace (_ || _)%bool with false; [reflexivity|]. symmetry. apply orb_false_iff.
        unfold m0 in Ne. destruct (Nat.ltb_spec d (2 * n)) as [B|B]; unfold d in *; destruct (Nat.leb_spec j i); split; apply Nat.eqb_neq; lia.
Qed.

Lemma hermitian_product x h k : length h = length x -> (k < length x)%nat ->
  hermitian (length x) (map (fun pq => Cmult (fst pq) (snd pq)) (combine (r2c x) (r2c h))) k = Cmult (dft x k) (dft h k).
Proof.
  intros L Hk. set (n := length x) in *. pose proof (half_bound n) as [H1 H2].
  assert (E : map (fun pq => Cmult (fst pq) (snd pq)) (combine (r2c x) (r2c h)) = map (fun k => Cmult (dft x k) (dft h k)) (seq 0 (n / 2 + 1))).
  { unfold r2c. rewrite L. fold n. generalize (seq 0 (n / 2 + 1)) as s. induction s as [|a s IH]; [reflexivity|]. cbn. now rewrite IH. }
  rewrite E. unfold hermitian. destruct (Nat.leb_spec k (n / 2)) as [B|B].
  - apply (nth_map_seq (fun k => Cmult (dft x k) (dft h k))). lia.
  - rewrite (nth_map_seq (fun k => Cmult (dft x k) (dft h k))) by lia. rewrite Cmult_conj. unfold n.
    rewrite dft_conj by (fold n; lia). fold n. rewrite <- L. rewrite dft_conj by (rewrite L; lia). reflexivity.
Qed.
Lemma map_ext_seq {A} (f g : nat -> A) a n : (forall i, (a <= i < a + n)%nat -> f i = g i) -> map f (seq a n) = map g (seq a n).
Proof. intros H. apply map_ext_in. intros i Hi. apply in_seq in Hi. now apply H. Qed.
Lemma valid_fft_ok x h : (1 <= length h <= length x)%nat -> valid_fft x h = valid_spec x h.
Proof.
  intros L. unfold valid_fft, valid_spec. set (n := length x). set (hp := h ++ repeat 0 (n - length h)).
  assert (Lp : length hp = n) by (unfold hp; rewrite app_length, repeat_length; unfold n; lia).
  assert (Hp : forall j, nth j hp 0 = nth j h 0).
  { intros j. unfold hp. destruct (Nat.lt_ge_cases j (length h)) as [M|M]; [now rewrite app_nth1|]. rewrite app_nth2, nth_repeat by exact M. now rewrite nth_overflow. }
  unfold c2r. rewrite skipn_map_seq, map_map by (fold n; lia). cbn [Nat.add]. replace (n - (length h - 1))%nat with (n - length h + 1)%nat by lia.
  apply map_ext_seq. intros i Hi. assert (Pn : 0 < INR n) by (apply lt_0_INR; lia).
  rewrite (csum_ext _ (fun k => Cmult (Cmult (dft x k) (dft hp k)) (cis (2 * PI * INR k * INR i / INR n)))).
  2:{ intros k Hk. unfold n. rewrite hermitian_product by (first [exact Lp|exact Hk]). reflexivity. }
  unfold n. rewrite dft_product by (first [exact Lp|fold n; lia]). fold n. cbn [Re RtoC fst].
  rewrite conv_far by lia. rewrite (rsum_more _ (length h) n); [|lia|intros j Hj; rewrite Hp, nth_overflow by lia; ring].
  unfold Rdiv. rewrite Rmult_comm, <- Rmult_assoc, Rinv_l, Rmult_1_l by lra. apply rsum_ext. intros j Hj. rewrite Hp.
  rewrite (proj2 (Nat.leb_le j i)) by lia. reflexivity.
Qed.

(** Padding turns VALID into FULL. *)
Lemma conv_pad x h i : (1 <= length h)%nat -> let t := (length h - 1)%nat in
  conv (repeat 0 t ++ x ++ repeat 0 t) h (t + i) = conv x h i.
Proof.
  intros L t. rewrite conv_far by (unfold t; lia). rewrite conv_kernel. apply rsum_ext. intros j Hj. destruct (Nat.leb_spec j i) as [B|B].
  - f_equal. rewrite app_nth2 by (rewrite repeat_length; lia). rewrite repeat_length. replace (t + i - j - t)%nat with (i - j)%nat by lia.
    destruct (Nat.lt_ge_cases (i - j) (length x)) as [M|M]; [now rewrite app_nth1|]. rewrite app_nth2, nth_repeat by exact M. now rewrite nth_overflow.
  - rewrite app_nth1 by (rewrite repeat_length; unfold t in *; lia). rewrite nth_repeat. ring.
Qed.
(** The modes. *)
Lemma by_mode_ok valid (x kern h : list R) mode : length kern = length h -> (1 <= length h <= length x)%nat ->
  (forall y, (length h <= length y)%nat -> valid y kern = valid_spec y h) ->
  by_mode valid mode x kern = map (conv x h) (mode_range (length x) (length h) mode).
Proof.
  intros Lk L V. unfold by_mode. rewrite Lk. set (t := (length h - 1)%nat).
  assert (F : valid (repeat 0 t ++ x ++ repeat 0 t) kern = map (conv x h) (seq 0 (length x + length h - 1))).
  { rewrite V by (rewrite !app_length, !repeat_length; lia). unfold valid_spec. rewrite !app_length, !repeat_length.
    replace (t + (length x + t) - length h + 1)%nat with (length x + length h - 1)%nat by (unfold t; lia). fold t.
    assert (G : forall k b a, seq (b + a) k = map (fun i => (b + i)%nat) (seq a k)).
    { clear. induction k as [|k IH]; intros b a; [reflexivity|]. cbn. f_equal. replace (S (b + a)) with (b + S a)%nat by lia. apply IH. }
    replace t with (t + 0)%nat at 3 by lia. rewrite G, map_map. apply map_ext. intros i. apply conv_pad. lia. }
  pose proof (half_bound t) as [HB _].
  destruct mode; cbn [mode_range].
  - exact F.
  - rewrite F, skipn_map_seq, firstn_map_seq by (fold t; unfold t in *; lia). reflexivity.
  - rewrite F, firstn_map_seq by lia. reflexivity.
  - rewrite F, skipn_map_seq by (unfold t; lia). cbn [Nat.add]. f_equal. f_equal. unfold t. lia.
  - rewrite V by lia. reflexivity.
Qed.
Theorem convolve_ok x fill kernel mode method par :
  let xx := map (fun o => match o with Some a => a | None => fill end) x in
  let h := flat_map (fun o => match o with Some a => [a] | None => [] end) kernel in
  (2 <= length h <= length xx)%nat -> (forall y, sched_ok (par y) (length y - length h + 1)) ->
  convolve x fill kernel mode method par = Some (map (conv xx h) (mode_range (length xx) (length h) mode)).
Proof.
  intros xx h L SK. unfold convolve, pl_convolve. fold xx h.
  assert (LL : length (match method with FFT => h | DIRECT => rev h end) = length h) by (destruct method; [reflexivity|apply rev_length]).
  rewrite LL. rewrite (proj2 (Nat.ltb_ge _ _)) by lia. rewrite (proj2 (Nat.ltb_ge (length h) 2)) by lia. cbn [orb]. f_equal.
  destruct method; apply by_mode_ok; try exact LL; try lia; intros y Hy; [apply valid_fft_ok; lia|apply valid_direct_ok; [lia|apply SK]].
Qed.
Theorem convolve_err x fill kernel mode method par :
  (let k := length (flat_map (fun o : option R => match o with Some a => [a] | None => [] end) kernel) in (k < 2 \/ length x < k)%nat) ->
  convolve x fill kernel mode method par = None.
Proof.
  cbv zeta. set (h := flat_map _ kernel). intros L. unfold convolve, pl_convolve. fold h.
  assert (LL : length (match method with FFT => h | DIRECT => rev h end) = length h) by (destruct method; [reflexivity|apply rev_length]).
  rewrite LL, map_length. destruct (Nat.ltb_spec (length x) (length h)); [reflexivity|]. destruct (Nat.ltb_spec (length h) 2); [reflexivity|]. lia.
Qed.

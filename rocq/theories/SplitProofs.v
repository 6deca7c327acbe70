(** Proofs about the model of sample_and_split.py. *)
From Coq Require Import Bool List Arith ZArith Reals Lra Lia Permutation.
From Flocq Require Import Core IEEE754.BinarySingleNaN.
From Verif Require Import Num F64 KdDemo F64Facts KdProofs CombModel CombSpec CombProofs SplitModel SplitSpec.
Import ListNotations.
Open Scope nat_scope.

(** * Masks *)
Lemma keep_cons {A} b m (a : A) l : keep (b :: m) (a :: l) = (if b then [a] else []) ++ keep m l.
Proof. unfold keep. cbn. destruct b; reflexivity. Qed.
Lemma keep_nil_r {A} m : keep m (@nil A) = [].
Proof. destruct m; reflexivity. Qed.
Lemma keep_subseq {A} : forall (l : list A) m, subseq (keep m l) l.
Proof.
  induction l as [|a l IH]; intros m; [rewrite keep_nil_r; constructor|].
  destruct m as [|b m]; [cbn; apply sub_skip, (IH [])|].
  rewrite keep_cons. destruct b; cbn; [apply sub_take|apply sub_skip]; apply IH.
Qed.
Lemma keep_merge {A} : forall (l : list A) m, length m = length l -> merge (keep m l) (keep (map negb m) l) l.
Proof.
  induction l as [|a l IH]; intros [|b m] E; try discriminate; [constructor|].
  cbn [map]. rewrite !keep_cons. destruct b; cbn [negb app]; constructor; apply IH; now injection E.
Qed.
Lemma keep_length {A} : forall (l : list A) m, length m = length l -> length (keep m l) = count (fun b => b) m.
Proof.
  induction l as [|a l IH]; intros [|b m] E; try discriminate; [reflexivity|].
  rewrite keep_cons, app_length, IH by now injection E. unfold count. cbn. destruct b; reflexivity.
Qed.
Lemma merge_length {A} (s t l : list A) : merge s t l -> length s + length t = length l.
Proof. induction 1; cbn; lia. Qed.

Lemma filter_map_length {A B} (f : A -> B) p l : length (filter p (map f l)) = length (filter (fun a => p (f a)) l).
Proof. induction l as [|a l IH]; cbn; [reflexivity|]. destruct (p (f a)); cbn; lia. Qed.
Lemma count_lt_seq t n b : count (fun v => (Z.of_nat v <? t)%Z) (seq b n) = Z.to_nat (Z.max 0 (Z.min (t - Z.of_nat b) (Z.of_nat n))).
Proof.
  unfold count. revert b. induction n as [|n IH]; intros b; [cbn; lia|].
  cbn [seq filter]. destruct (Z.ltb_spec (Z.of_nat b) t); cbn [length]; rewrite IH; lia.
Qed.
Lemma count_below sh n t : Permutation sh (seq 0 n) ->
  count (fun b => b) (below sh t) = Z.to_nat (Z.max 0 (Z.min t (Z.of_nat n))).
Proof.
  intros H. unfold count, below. rewrite filter_map_length.
  transitivity (length (filter (fun v => (Z.of_nat v <? t)%Z) (seq 0 n))).
  - apply Permutation_length, filter_perm, H.
  - pose proof (count_lt_seq t n 0) as E. unfold count in E. rewrite E. lia.
Qed.
Lemma below_length sh t : length (below sh t) = length sh.
Proof. apply map_length. Qed.
Lemma shuffle_length sh n : Permutation sh (seq 0 n) -> length sh = n.
Proof. intros H. rewrite (Permutation_length H). apply seq_length. Qed.

(** * The size of a share *)

Lemma rnd_err x : (Rabs x <= bpow radix2 32)%R -> (Rabs (rnd64 x - x) <= bpow radix2 (-21))%R.
Proof.
  intros H. eapply Rle_trans; [apply error_le_half_ulp; typeclasses eauto|].
  assert (U : (ulp radix2 fexp64 x <= bpow radix2 (-20))%R).
  { eapply Rle_trans.
    - apply ulp_le; [typeclasses eauto|typeclasses eauto|]. rewrite (Rabs_pos_eq (bpow radix2 32)); [exact H|apply bpow_ge_0].
    - rewrite ulp_bpow. apply bpow_le. unfold SpecFloat.fexp, SpecFloat.emin. lia. }
  replace (bpow radix2 (-21)) with (/ 2 * bpow radix2 (-20))%R; [lra|].
  change (-20)%Z with (-21 + 1)%Z. rewrite bpow_plus. change (bpow radix2 1) with 2%R. lra.
Qed.

Lemma cutoff_ok n v : ratio_in v -> small n ->
  (0 <= cutoff n v <= Z.of_nat n)%Z /\
  (INR n * B2R v - 1 < IZR (cutoff n v) <= INR n * B2R v + / 1048576)%R.
Proof.
  intros [Fv Bv] Sn. unfold small in Sn.
  assert (Fn : fin (fi (Z.of_nat n)) (IZR (Z.of_nat n))) by (apply fin_fi; lia).
  set (x := (IZR (Z.of_nat n) * B2R v)%R).
  assert (N0 : (0 <= IZR (Z.of_nat n))%R) by (apply IZR_le; lia).
  assert (Bx : (0 <= x <= IZR (Z.of_nat n))%R) by (unfold x; nra).
  assert (P32 : IZR (2 ^ 32) = bpow radix2 32) by reflexivity.
  assert (Nb : (IZR (Z.of_nat n) <= bpow radix2 32)%R) by (rewrite <- P32; apply IZR_le; exact Sn).
  assert (Ax : (Rabs x <= bpow radix2 32)%R) by (rewrite Rabs_pos_eq; lra).
  destruct (fin_mul (fi (Z.of_nat n)) v (IZR (Z.of_nat n)) (B2R v) 32 ltac:(lia) Fn (conj Fv eq_refl) Ax) as [Fp Ep].
  fold x in Ep.
  assert (R0 : (0 <= rnd64 x)%R).
  { rewrite <- (round_0 radix2 fexp64 ZnearestE). apply round_le; try typeclasses eauto. lra. }
  assert (E : cutoff n v = Zfloor (rnd64 x)).
  { apply eq_IZR. unfold cutoff. etransitivity; [apply (Btrunc_correct 53 1024 f64_emax)|].
    etransitivity; [apply f_equal; exact Ep|].
    rewrite round_FIX_IZR. now rewrite Ztrunc_floor. }
  assert (Rn : (rnd64 x <= IZR (Z.of_nat n))%R).
  { rewrite <- (rnd64_int (Z.of_nat n)) by lia. apply round_le; try typeclasses eauto. lra. }
  pose proof (Zfloor_lb (rnd64 x)) as L. pose proof (Zfloor_ub (rnd64 x)) as U. rewrite <- E in L, U.
  assert (Lx : (IZR (Zfloor x) <= rnd64 x)%R).
  { rewrite <- (rnd64_int (Zfloor x)).
    - apply round_le; try typeclasses eauto. apply Zfloor_lb.
    - assert (0 <= Zfloor x)%Z by (apply Zfloor_lub; apply Bx).
      assert (IZR (Zfloor x) <= IZR (Z.of_nat n))%R by (eapply Rle_trans; [apply Zfloor_lb|apply Bx]).
      apply le_IZR in H0. lia. }
  assert (FC : (Zfloor x <= cutoff n v)%Z) by (rewrite E; now apply Zfloor_lub).
  pose proof (Zfloor_ub x) as Ux. apply IZR_le in FC.
  pose proof (rnd_err x Ax) as ER. apply Rabs_le_inv in ER.
  assert (B21 : (bpow radix2 (-21) <= / 1048576)%R).
  { change (bpow radix2 (-21)) with (/ IZR (Z.pow_pos 2 21))%R. change (Z.pow_pos 2 21) with 2097152%Z. lra. }
  rewrite INR_IZR_INZ. fold x. split; [split|lra].
  - rewrite E. apply Zfloor_lub. exact R0.
  - apply le_IZR. lra.
Qed.
Lemma cutoff_share n v : ratio_in v -> small n -> share n (Z.to_nat (cutoff n v)) (B2R v).
Proof.
  intros H S. destruct (cutoff_ok n v H S) as [B1 B2]. split; [lia|].
  rewrite (INR_IZR_INZ (Z.to_nat _)), Z2Nat.id by lia. exact B2.
Qed.

Lemma fle_fin (x y : f64) : is_finite x = true -> is_finite y = true -> nle f64_ops x y = Rle_bool (B2R x) (B2R y).
Proof. intros Fx Fy. now apply (fin_le x y). Qed.
Lemma f1 : is_finite (fi 1) = true /\ B2R (fi 1) = 1%R.
Proof. apply (fin_fi 1). lia. Qed.

Lemma frac_range v : nle f64_ops (fi 1) v = false -> nle f64_ops v (nzero f64_ops) = false -> is_nan v = false ->
  is_finite v = true /\ (0 < B2R v < 1)%R.
Proof.
  intros H1 H0 Hn. destruct f1 as [F1 E1].
  assert (F : is_finite v = true).
  { destruct v as [s|[|]| |s m e He]; try reflexivity; try discriminate. }
  split; [exact F|].
  rewrite fle_fin in H1, H0 by (try assumption; reflexivity). rewrite E1 in H1.
  change (B2R (nzero f64_ops)) with 0%R in H0.
  destruct (Rle_bool_spec 1 (B2R v)); [discriminate|]. destruct (Rle_bool_spec (B2R v) 0); [discriminate|]. lra.
Qed.
Lemma frac_range_conv v : is_finite v = true -> (0 < B2R v < 1)%R ->
  nle f64_ops (fi 1) v = false /\ nle f64_ops v (nzero f64_ops) = false.
Proof.
  intros F B. destruct f1 as [F1 E1]. rewrite !fle_fin by (try assumption; reflexivity). rewrite E1.
  change (B2R (nzero f64_ops)) with 0%R. split; apply Rle_bool_false; lra.
Qed.
Lemma frac_reject v : is_finite v = true -> (B2R v <= 0 \/ 1 <= B2R v)%R ->
  nle f64_ops (fi 1) v || nle f64_ops v (nzero f64_ops) = true.
Proof.
  intros F B. destruct f1 as [F1 E1]. rewrite !fle_fin by (try assumption; reflexivity). rewrite E1.
  change (B2R (nzero f64_ops)) with 0%R.
  destruct B; [rewrite (Rle_bool_true (B2R v)) by lra; apply orb_true_r|rewrite Rle_bool_true by lra; reflexivity].
Qed.

(** * sample *)
Lemma sample_gen {A} sh (df : list A) t : shuffles sh ->
  let out := keep (below (sh (length df)) t) df in
  subseq out df /\ length out = Z.to_nat (Z.max 0 (Z.min t (Z.of_nat (length df)))).
Proof.
  intros H out. split; [apply keep_subseq|]. unfold out.
  rewrite keep_length; [now apply count_below|]. rewrite below_length. now apply shuffle_length.
Qed.

(** Every subset of the right size is the result for some shuffle. *)
Fixpoint number (mask : list bool) (i j : nat) : list nat :=
  match mask with
  | [] => []
  | true :: m => i :: number m (S i) j
  | false :: m => j :: number m i (S j)
  end.
Lemma number_perm : forall mask i j, Permutation (number mask i j)
  (seq i (count (fun b => b) mask) ++ seq j (count negb mask)).
Proof.
  induction mask as [|b mask IH]; intros i j; [reflexivity|].
  unfold count in *. destruct b; cbn.
  - apply perm_skip, IH.
  - rewrite IH. apply Permutation_middle.
Qed.
Lemma number_below t : forall mask i j, i + count (fun b => b) mask <= t -> t <= j ->
  below (number mask i j) (Z.of_nat t) = mask.
Proof.
  unfold count. induction mask as [|b mask IH]; intros i j Hi Hj; [reflexivity|].
  destruct b; cbn in *.
  - destruct (Z.ltb_spec (Z.of_nat i) (Z.of_nat t)); [|lia]. f_equal. apply IH; lia.
  - destruct (Z.ltb_spec (Z.of_nat j) (Z.of_nat t)); [lia|]. f_equal. apply IH; lia.
Qed.
Lemma count_split (mask : list bool) : count (fun b => b) mask + count negb mask = length mask.
Proof. unfold count. induction mask as [|[] m IH]; cbn; lia. Qed.
Definition shuffle_for (mask : list bool) (n : nat) : list nat :=
  if n =? length mask then number mask 0 (count (fun b => b) mask) else seq 0 n.
Lemma shuffle_for_ok mask : shuffles (shuffle_for mask).
Proof.
  intros n. unfold shuffle_for. destruct (Nat.eqb_spec n (length mask)) as [->|N]; [|reflexivity].
  rewrite number_perm. rewrite <- (count_split mask), seq_app. reflexivity.
Qed.
Lemma subseq_mask {A} (s l : list A) : subseq s l -> exists mask, length mask = length l /\ keep mask l = s /\ count (fun b => b) mask = length s.
Proof.
  induction 1 as [|a s l H (m & E & K & C)|a s l H (m & E & K & C)].
  - exists []. repeat split.
  - exists (false :: m). rewrite keep_cons. cbn. repeat split; [congruence|exact K|exact C].
  - exists (true :: m). rewrite keep_cons. unfold count in *. cbn. repeat split; [congruence|congruence|congruence].
Qed.
Lemma every_sample {A} (df s : list A) t : subseq s df -> length s = t ->
  exists sh, shuffles sh /\ keep (below (sh (length df)) (Z.of_nat t)) df = s.
Proof.
  intros H E. destruct (subseq_mask _ _ H) as (m & L & K & C).
  exists (shuffle_for m). split; [apply shuffle_for_ok|].
  unfold shuffle_for. rewrite <- L, Nat.eqb_refl, number_below; [exact K|lia|lia].
Qed.

(** * Groups *)
Section Over.
Context {A G : Type} (dec : forall x y : G, {x = y} + {x <> y}) (key : A -> G) (sh : G -> nat -> list nat).
Definition isg (g : G) (a : A) : bool := if dec (key a) g then true else false.
Lemma count_occ_filter g rows : count_occ dec (map key rows) g = count (isg g) rows.
Proof.
  unfold count, isg. induction rows as [|a rows IH]; [reflexivity|]. cbn.
  destruct (dec (key a) g); cbn; lia.
Qed.
Lemma over_length total : forall rows seen, length (over_go dec key sh total seen rows) = length rows.
Proof. induction rows as [|a rows IH]; intros seen; cbn; [reflexivity|]. now rewrite IH. Qed.

(** The indices of the rows of one group, in row order. *)
Lemma over_group total g : forall rows seen,
  length (sh g (total g)) = count_occ dec seen g + count (isg g) rows ->
  map fst (filter (fun p => isg g (snd p)) (combine (over_go dec key sh total seen rows) rows))
  = skipn (count_occ dec seen g) (sh g (total g)).
Proof.
  induction rows as [|a rows IH]; intros seen E.
  - cbn. rewrite skipn_all2; [reflexivity|]. cbn in E. unfold count in E. cbn in E. lia.
  - cbn [over_go combine filter snd]. unfold isg at 1. destruct (dec (key a) g) as [Eg|Ng].
    + cbn [map fst]. rewrite IH.
      * rewrite Eg. cbn [count_occ]. destruct (dec g g); [|contradiction].
        assert (Lt : count_occ dec seen g < length (sh g (total g))).
        { rewrite E. unfold count. cbn. unfold isg at 1. destruct (dec (key a) g); [cbn; lia|contradiction]. }
        revert Lt. generalize (sh g (total g)) as l, (count_occ dec seen g) as k. clear.
        intros l. induction l as [|x l IH]; intros k H; [cbn in H; lia|]. destruct k; [reflexivity|].
        cbn [nth skipn]. cbn in H. apply (IH k). lia.
      * rewrite Eg. cbn [count_occ]. destruct (dec g g); [|contradiction].
        rewrite E. unfold count. cbn. unfold isg at 1. destruct (dec (key a) g); [cbn; lia|contradiction].
    + rewrite IH.
      * cbn [count_occ]. destruct (dec (key a) g); [contradiction|reflexivity].
      * cbn [count_occ]. destruct (dec (key a) g); [contradiction|].
        rewrite E. unfold count. cbn. unfold isg at 1. destruct (dec (key a) g); [contradiction|reflexivity].
Qed.

(** Rows kept by a test on their shuffled index, the bound depending on the group only. *)
Definition pass (t : G -> Z) (p : nat * A) : bool := (Z.of_nat (fst p) <? t (key (snd p)))%Z.
Lemma over_count (t : G -> Z) rows g : group_shuffles sh ->
  count (isg g) (keep (map (pass t) (combine (over dec key sh rows) rows)) rows)
  = Z.to_nat (Z.max 0 (Z.min (t g) (Z.of_nat (count (isg g) rows)))).
Proof.
  intros H. unfold over. set (total := count_occ dec (map key rows)).
  pose proof (over_group total g rows []) as E. cbn [count_occ skipn plus] in E.
  assert (T : total g = count (isg g) rows) by apply count_occ_filter.
  specialize (H g (total g)). pose proof (shuffle_length _ _ H) as L.
  specialize (E ltac:(rewrite L; exact T)).
  rewrite <- T. rewrite <- (count_below _ _ (t g) H). unfold below. rewrite <- E.
  pose proof (over_length total rows []) as OL. revert OL. generalize (over_go dec key sh total [] rows) as idx. clear.
  unfold count. induction rows as [|a rows IH]; intros [|i idx] OL; try discriminate; [reflexivity|].
  cbn [combine map]. rewrite keep_cons, filter_app, app_length. rewrite (IH idx) by now injection OL.
  unfold pass at 1. cbn [fst snd filter].
  destruct (isg g a) eqn:I.
  - assert (K : key a = g) by (unfold isg in I; destruct (dec (key a) g); congruence). rewrite K. cbn [map fst].
    destruct (Z.ltb_spec (Z.of_nat i) (t g)); cbn [filter length]; [rewrite I; reflexivity|reflexivity].
  - destruct (_ <? _)%Z; cbn [filter length]; [rewrite I|]; reflexivity.
Qed.
End Over.

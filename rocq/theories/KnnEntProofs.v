From Coq Require Import Bool List Arith NArith ZArith Lia Permutation Sorted Reals Lra.
From Flocq Require Import Core IEEE754.BinarySingleNaN Mult_error.
From Verif Require Import Num F64 KdModel KdSpec KdProofs KdSound PyKdModel PyKdSpec PyKdProofs KnnExprModel KnnExprSpec KnnExprProofs KnnExprSem
  MetricSpec DigammaModel DigammaSpec DigammaProofs KnnEntModel KnnEntSpec.
Import ListNotations.
Open Scope nat_scope.

(** Addition is associative and commutative. *)
Lemma xplus_comm a b : xplus a b = xplus b a.
Proof. destruct a, b; cbn; try reflexivity. f_equal. apply Rplus_comm. Qed.
Lemma xplus_assoc a b c : xplus a (xplus b c) = xplus (xplus a b) c.
Proof. destruct a, b, c; cbn; try reflexivity. f_equal. symmetry. apply Rplus_assoc. Qed.
Lemma xplus_0 a : xplus a (Fin 0) = a.
Proof. destruct a; cbn; try reflexivity. f_equal. apply Rplus_0_r. Qed.
Lemma xplus_0_l a : xplus (Fin 0) a = a.
Proof. rewrite xplus_comm. apply xplus_0. Qed.
Definition xsum (l : list xnum) : xnum := fold_right xplus (Fin 0) l.
Lemma fold_xplus l a : fold_left xplus l a = xplus a (xsum l).
Proof.
  revert a. induction l as [|x l IH]; intros a; cbn [fold_left xsum fold_right]; [now rewrite xplus_0|]. rewrite IH.
  fold (xsum l). now rewrite xplus_assoc.
Qed.
Lemma xsum_perm a b : Permutation a b -> xsum a = xsum b.
Proof.
  induction 1 as [|x a b _ IH|x y a|a b c _ IH1 _ IH2]; cbn [xsum fold_right]; [reflexivity| | |congruence].
  - fold (xsum a) (xsum b). now rewrite IH.
  - fold (xsum a). rewrite !xplus_assoc. f_equal. apply xplus_comm.
Qed.
Lemma xsum_app a b : xsum (a ++ b) = xplus (xsum a) (xsum b).
Proof.
  induction a as [|x a IH]; cbn [app xsum fold_right]; [now rewrite xplus_0_l|]. fold (xsum (a ++ b)) (xsum a). rewrite IH. apply xplus_assoc.
Qed.
Definition contrib (s : step) : xnum := match s with Keep => Fin 0 | Poison => NaN | Dist d => xln d end.
Lemma fold_steps l a : fold_left apply_step l a = xplus a (xsum (map contrib l)).
Proof.
  revert a. induction l as [|s l IH]; intros a; cbn [fold_left map xsum fold_right]; [now rewrite xplus_0|]. rewrite IH. fold (xsum (map contrib l)).
  rewrite xplus_assoc. f_equal. destruct s; cbn [apply_step contrib]; [now rewrite xplus_0|destruct a; reflexivity|reflexivity].
Qed.

(** Parallel and sequential evaluation agree. *)
Lemma nth_map_seq {X} (d : X) l : map (fun i => nth i l d) (seq 0 (length l)) = l.
Proof.
  induction l as [|a l IH]; [reflexivity|]. cbn [length seq map nth]. f_equal. rewrite <- seq_shift, map_map. exact IH.
Qed.
Lemma fold_rows_concat cell ls :
  match traverse (fold_rows cell) ls with None => None | Some c => Some (xsum c) end = fold_rows cell (concat ls).
Proof.
  induction ls as [|l ls IH]; [reflexivity|]. cbn [traverse concat]. unfold fold_rows in *. rewrite traverse_app.
  destruct (traverse cell l) as [u|]; [|reflexivity].
  destruct (traverse (fun rows => match traverse cell rows with Some l0 => Some (fold_left apply_step l0 (Fin 0)) | None => None end) ls) as [c|];
    destruct (traverse cell (concat ls)) as [v|]; try discriminate IH; [|reflexivity].
  injection IH as E. cbn [xsum fold_right]. fold (xsum c). rewrite E, !fold_steps, map_app, xsum_app, !xplus_0_l. reflexivity.
Qed.
Lemma helper_par cell m data nrows par : 0 < m -> length data = nrows * m -> par_ok par ->
  entropy_helper cell m data par = fold_rows cell (chunks_exact N m data).
Proof.
  intros Hm L P. destruct par as [[n sched]|]; [|reflexivity]. destruct P as [Hn P].
  cbn [entropy_helper]. rewrite L, Nat.div_mul by lia. pose proof (chunks_exact_length N m data nrows Hm L) as Lc.
  set (items := chunks_exact N m data) in *.
  destruct (split_offsets_cover nrows n Hn) as (s & E & Ls & C). rewrite E.
  rewrite par_map_seq by (rewrite Ls; exact P).
  rewrite (traverse_ext_in _ (fun ol => fold_rows cell (firstn (snd ol) (skipn (fst ol) items)))).
  2:{ intros [o l] Hi. cbn [fst snd]. pose proof (split_offsets_bound _ _ _ _ _ Hn E Hi) as B.
      destruct (chunk_slice N m data nrows o l Hm L B) as (sub & -> & ->). reflexivity. }
  rewrite <- (traverse_map (fold_rows cell) (fun ol => firstn (snd ol) (skipn (fst ol) items))).
  pose proof (fold_rows_concat cell (map (fun ol => firstn (snd ol) (skipn (fst ol) items)) s)) as F.
  rewrite slices_cover in F; [| |rewrite Lc; exact C].
  2:{ intros o l Hi. rewrite Lc. exact (split_offsets_bound _ _ _ _ _ Hn E Hi). }
  destruct (traverse (fold_rows cell) (map (fun ol => firstn (snd ol) (skipn (fst ol) items)) s)) as [c|] eqn:T; rewrite <- F; [|reflexivity].
  f_equal. rewrite fold_xplus, xplus_0_l. apply xsum_perm.
  assert (Lt : length c = n).
  { clear - T Ls. assert (G : forall (l : list (list (list f64t))) c, traverse (fold_rows cell) l = Some c -> length c = length l).
    { induction l as [|a l IH]; intros c0 H; cbn [traverse] in H; [now injection H as <-|]. destruct (fold_rows cell a); [|discriminate].
      destruct (traverse (fold_rows cell) l); [|discriminate]. injection H as <-. cbn. f_equal. now apply IH. }
    apply G in T. now rewrite T, map_length. }
  transitivity (map (fun i => nth i c NaN) (seq 0 n)); [now apply Permutation_map|]. rewrite <- Lt, nth_map_seq. reflexivity.
Qed.

(** The ball constant. *)
Lemma ball_l2 gamma d : gamma_half_ok gamma -> ball_constant gamma Dl2 (INR d) = round_ball d.
Proof.
  intros (G1 & G2 & GS). cbn [ball_constant]. pose proof PI_RGT_0 as PP.
  assert (SP : (0 < sqrt PI)%R) by now apply sqrt_lt_R0.
  assert (H : forall d, (0 < gamma (1 + INR d / 2))%R /\ (0 < gamma (1 + INR (S d) / 2))%R /\
    (Rpower PI (INR d / 2) / Rpower 2 (INR d) / gamma (1 + INR d / 2) = round_ball d)%R /\
    (Rpower PI (INR (S d) / 2) / Rpower 2 (INR (S d)) / gamma (1 + INR (S d) / 2) = round_ball (S d))%R).
  { clear d. induction d as [|d (P1 & P2 & E1 & E2)].
    - cbn [INR round_ball].
      assert (GH : gamma (1 + 1 / 2)%R = (1 / 2 * sqrt PI)%R) by (rewrite GS by lra; now rewrite G2).
      replace (1 + 0 / 2)%R with 1%R by field. replace (0 / 2)%R with 0%R by field. rewrite G1, GH, !Rpower_O, Rpower_1 by lra.
      replace (1 / 2)%R with (/ 2)%R by field. rewrite Rpower_sqrt by lra. repeat split; try lra. field. lra.
    - assert (S2 : INR (S (S d)) = (INR d + 2)%R) by (rewrite !S_INR; ring).
      pose proof (pos_INR d) as D0.
      assert (GG : gamma (1 + INR (S (S d)) / 2)%R = ((1 + INR d / 2) * gamma (1 + INR d / 2))%R).
      { replace (1 + INR (S (S d)) / 2)%R with (1 + (1 + INR d / 2))%R by (rewrite S2; field). apply GS. lra. }
      assert (QP : (0 < 1 + INR d / 2)%R) by lra.
      repeat split; [exact P2|rewrite GG; now apply Rmult_lt_0_compat|exact E2|]. rewrite GG.
      change (round_ball (S (S d))) with (round_ball d * PI / (2 * INR (S (S d))))%R. rewrite <- E1, S2.
      replace ((INR d + 2) / 2)%R with (INR d / 2 + 1)%R by field. rewrite !Rpower_plus, Rpower_1 by lra.
      replace (Rpower 2 2)%R with 4%R by (replace 2%R with (INR 2) at 2 by (cbn; ring); rewrite Rpower_pow by lra; ring).
      field. assert (0 < Rpower 2 (INR d))%R by apply exp_pos. repeat split; lra. }
  apply H.
Qed.

(** Zero floats. *)
Definition isz (x : f64) : Prop := exists s, x = B754_zero s.
Lemma isz_B2R (x : f64) : is_finite x = true -> B2R x = 0%R -> isz x.
Proof.
  destruct x as [s|s| |s m e He]; cbn; try discriminate; intros _ H; [now exists s|]. exfalso.
  assert (F2R (Float radix2 (SpecFloat.cond_Zopp s (Zpos m)) e) <> 0%R); [|tauto]. apply F2R_neq_0. cbn. destruct s; discriminate.
Qed.
Lemma sub_self (x : f64) : is_finite x = true -> isz (Bminus mode_NE x x).
Proof.
  intros F. pose proof (Bminus_correct 53 1024 _ _ mode_NE x x F F) as H. rewrite Rminus_eq_0 in H.
  assert (Z : round radix2 (SpecFloat.fexp 53 1024) (round_mode mode_NE) 0 = 0%R) by (apply round_0, valid_rnd_round_mode).
  rewrite Z, Rabs_R0, Rlt_bool_true in H by apply bpow_gt_0. destruct H as (B & Fi & _). now apply isz_B2R.
Qed.
Lemma isz_add x y : isz x -> isz y -> isz (Bplus mode_NE x y).
Proof. intros [[|] ->] [[|] ->]; eexists; reflexivity. Qed.
Lemma isz_mul x y : isz x -> isz y -> isz (Bmult mode_NE x y).
Proof. intros [[|] ->] [[|] ->]; eexists; reflexivity. Qed.
Lemma isz_abs x : isz x -> isz (Babs x).
Proof. intros [[|] ->]; eexists; reflexivity. Qed.
Lemma isz_sqrt x : isz x -> isz (Bsqrt mode_NE x).
Proof. intros [[|] ->]; eexists; reflexivity. Qed.
Lemma isz_max x y : isz x -> isz y -> isz (nmax N x y).
Proof. intros [[|] ->] [[|] ->]; eexists; reflexivity. Qed.
Lemma self_distance m p : all_finite N p -> isz (spec_dist N m p p).
Proof.
  intros F.
  assert (S : forall (f : f64 -> f64), (forall z, isz z -> isz (f z)) -> forall p acc, all_finite N p -> isz acc ->
    isz (fold_left (fun acc xy => Bplus mode_NE acc (f (Bminus mode_NE (fst xy) (snd xy)))) (combine p p) acc)).
  { intros f Hf. induction p0 as [|x p0 IH]; intros acc Fp Ha; [exact Ha|]. inversion Fp; subst. cbn [combine fold_left fst snd].
    apply IH; [assumption|]. apply isz_add; [exact Ha|]. apply Hf. now apply sub_self. }
  assert (Z : isz (nzero N)) by (now exists false).
  destruct m; cbn [spec_dist].
  - apply (S (fun z => Babs z)); [apply isz_abs|exact F|exact Z].
  - apply isz_sqrt. apply (S (fun z => Bmult mode_NE z z)); [intros z Hz; now apply isz_mul|exact F|exact Z].
  - apply (S (fun z => Bmult mode_NE z z)); [intros z Hz; now apply isz_mul|exact F|exact Z].
  - clear S. revert Z. generalize (nzero N). induction p as [|x p IH]; intros acc Ha; [exact Ha|]. inversion F; subst. cbn [combine fold_left fst snd].
    apply IH; [assumption|]. apply isz_max; [exact Ha|]. apply isz_abs. now apply sub_self.
Qed.

(** Order of finite floats. *)
Lemma le_fin (x y : f64) : is_finite x = true -> is_finite y = true -> nle N x y = Rleb (B2R x) (B2R y).
Proof.
  intros Fx Fy. cbn [nle N f64_ops b_ops]. rewrite Bleb_correct by assumption. unfold Rleb, Rle_bool.
  destruct (Rle_dec (B2R x) (B2R y)), (Rcompare_spec (B2R x) (B2R y)); try reflexivity; lra.
Qed.
Lemma lt_fin (x y : f64) : is_finite x = true -> is_finite y = true -> nlt N x y = Rltb (B2R x) (B2R y).
Proof.
  intros Fx Fy. cbn [nlt N f64_ops b_ops]. rewrite Bltb_correct by assumption. unfold Rltb, Rlt_bool.
  destruct (Rlt_dec (B2R x) (B2R y)), (Rcompare_spec (B2R x) (B2R y)); try reflexivity; lra.
Qed.
(** Doubling is exact unless it overflows. *)
Notation two := (nadd N (none N) (none N)).
Lemma two_R : B2R (two : f64) = 2%R /\ is_finite (two : f64) = true.
Proof. split; [|reflexivity]. cbv. lra. Qed.
Lemma double_ok (x : f64) : is_finite (Bmult mode_NE (two : f64) x) = true -> is_finite x = true /\ B2R (Bmult mode_NE (two : f64) x) = (2 * B2R x)%R.
Proof.
  intros F. destruct two_R as [T1 T2]. assert (Fx : is_finite x = true).
  { clear - F T1 T2. revert F T1 T2. generalize (two : f64). intros w F T1 T2.
    destruct w as [s'|s'| |s' m' e' He']; [cbn in T1; lra|discriminate T2|discriminate T2|]. clear T1.
    destruct x as [s|s| |s m e He]; try reflexivity; destruct s'; discriminate F. }
  split; [exact Fx|]. pose proof (Bmult_correct 53 1024 _ _ mode_NE (two : f64) x) as H. rewrite T1 in H.
  assert (E : round radix2 (SpecFloat.fexp 53 1024) (round_mode mode_NE) (2 * B2R x) = (2 * B2R x)%R).
  { apply round_generic; [apply valid_rnd_round_mode|]. rewrite Rmult_comm. change 2%R with (bpow radix2 1).
    apply (mult_bpow_pos_exact_FLT radix2 (3 - 1024 - 53) 53); [|lia]. apply generic_format_B2R. }
  rewrite E in H. destruct (Rlt_bool (Rabs (2 * B2R x)) (bpow radix2 1024)); [apply H|].
  exfalso. assert (G : is_finite_SF (B2SF (Bmult mode_NE (two : f64) x)) = true) by (rewrite is_finite_SF_B2SF; exact F).
  rewrite H in G. unfold binary_overflow in G. cbn in G. discriminate.
Qed.

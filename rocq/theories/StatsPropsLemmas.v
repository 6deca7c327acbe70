(** Concrete sorts and samples for the statistics theorems, and witnesses for the refutations. *)
From Coq Require Import Bool List Arith ZArith QArith Lia Lqa Permutation Sorted Reals.
From Flocq Require Import IEEE754.BinarySingleNaN.
From Verif Require Import Num F64 F64Facts KdDemo KdProofs PairSums QSum KendallModel KendallSpec KendallProofs
  KsModel KsSpec KsProofs MwModel MwSpec MwProofs AnovaModel AnovaSpec AnovaProofs Chi2Proofs
  SampleModel SampleSpec SampleProofs.
Import ListNotations.
Open Scope Z_scope.

Section Sorted.
Context {X : Type} (le : X -> X -> bool) (P : X -> Prop).
Hypothesis total : forall a b, P a -> P b -> le a b = true \/ le b a = true.
Hypothesis trans : forall a b c, le a b = true -> le b c = true -> le a c = true.
Lemma ins_sorted x l : P x -> Forall P l -> StronglySorted (fun a b => le a b = true) l ->
  StronglySorted (fun a b => le a b = true) (ins le x l).
Proof.
  intros Px Pl S. induction S as [|y l S IH F]; simpl; [repeat constructor|].
  inversion Pl as [|? ? Py Pl']; subst. destruct (le x y) eqn:E.
  - constructor; [constructor; assumption|]. constructor; [exact E|].
    eapply Forall_impl; [|exact F]. intros z Hz. simpl in Hz. eapply trans; eassumption.
  - constructor; [now apply IH|]. assert (Eyx : le y x = true) by (destruct (total x y Px Py); congruence).
    rewrite Forall_forall in F |- *. intros z Hz. apply (Permutation_in _ (ins_perm le x l)) in Hz.
    destruct Hz as [<-|Hz]; [exact Eyx|now apply F].
Qed.
Lemma isort_sorted l : Forall P l -> StronglySorted (fun a b => le a b = true) (isort le l).
Proof.
  induction 1 as [|x l Px Pl IH]; simpl; [constructor|]. apply ins_sorted; [exact Px| |exact IH].
  eapply Forall_perm; [symmetry; apply isort_perm|exact Pl].
Qed.
End Sorted.

Definition demo_zsort : list Z -> list Z := isort Z.leb.
Lemma demo_zsort_ok : z_sort_ok demo_zsort.
Proof.
  intros l. split; [apply isort_perm|].
  assert (S : StronglySorted (fun a b => (a <=? b) = true) (demo_zsort l)).
  { apply (isort_sorted Z.leb (fun _ => True)); [intros; lia|intros; lia|now apply Forall_forall]. }
  induction S as [|a l' S IH F]; constructor; [exact IH|]. eapply Forall_impl; [|exact F]. intros; simpl in *; lia.
Qed.
Definition lexb (a b : Z * Z) : bool := (fst a <? fst b) || ((fst a =? fst b) && (snd a <=? snd b)).
Definition demo_lex_sort : list (Z * Z) -> list (Z * Z) := isort lexb.
Lemma demo_lex_sort_ok : lex_sort_ok demo_lex_sort.
Proof.
  intros l. split; [apply isort_perm|].
  assert (S : StronglySorted (fun a b => lexb a b = true) (demo_lex_sort l)).
  { apply (isort_sorted lexb (fun _ => True)); [| |now apply Forall_forall]; unfold lexb; intros; lia. }
  induction S as [|a l' S IH F]; constructor; [exact IH|]. eapply Forall_impl; [|exact F].
  intros b Hb. simpl in Hb. unfold lexb in Hb. unfold lex. lia.
Qed.
Definition demo_fsort : list f64 -> list f64 := isort (nle f64_ops).
Lemma demo_fsort_ok : float_sort_ok demo_fsort.
Proof.
  intros l. split; [apply isort_perm|]. intros NN.
  apply (isort_sorted (nle f64_ops) (fun x => nnan f64_ops x = false)); [| |exact NN].
  - intros a b. apply (le_total f64_ops f64_laws).
  - apply (le_trans f64_ops f64_laws).
Qed.
Lemma okey_dec (a b : option Z) : {a = b} + {a <> b}.
Proof. decide equality. apply Z.eq_dec. Defined.
Definition demo_uniq : list (option Z) -> list (option Z) := nodup okey_dec.
Lemma demo_uniq_ok : uniq_ok demo_uniq.
Proof. intros l. split; [apply NoDup_nodup|]. intros x. apply nodup_In. Qed.

(** ** Kendall *)
Lemma map_opt_rows2 (f g : Z -> Z) x y : complete_rows (map (option_map f) x) (map (option_map g) y) =
  map (fun p : Z * Z => (f (fst p), g (snd p))) (complete_rows x y).
Proof.
  unfold complete_rows. revert y. induction x as [|a x IH]; intros [|b y]; try reflexivity.
  destruct a as [a|], b as [b|]; simpl; rewrite IH; reflexivity.
Qed.
Lemma sgn_mono (f : Z -> Z) (M : forall a b, a < b -> f a < f b) a b : Z.sgn (f a - f b) = Z.sgn (a - b).
Proof. destruct (Z.lt_trichotomy a b) as [H|[->|H]]; [specialize (M _ _ H)| |specialize (M _ _ H)]; lia. Qed.
Lemma eqb_mono (f : Z -> Z) (M : forall a b, a < b -> f a < f b) a b : (f a =? f b) = (a =? b).
Proof. destruct (Z.lt_trichotomy a b) as [H|[->|H]]; [specialize (M _ _ H)| |specialize (M _ _ H)]; lia. Qed.
Lemma kendall_mono sort x y (f g : Z -> Z) : lex_sort_ok sort -> (forall a b, a < b -> f a < f b) -> (forall a b, a < b -> g a < g b) ->
  kendall_tau sort (map (option_map f) x) (map (option_map g) y) = kendall_tau sort x y.
Proof.
  intros SO Mf Mg. rewrite !kendall_tau_ok by assumption. rewrite map_opt_rows2, map_length.
  set (h := fun p : Z * Z => (f (fst p), g (snd p))). set (rows := complete_rows x y).
  assert (E : tau_b (map h rows) = tau_b rows); [|now rewrite E].
  unfold tau_b, concordant_minus_discordant, untied_x, untied_y. rewrite !psum_map.
  f_equal; [f_equal|do 2 f_equal; f_equal].
  - apply psum_ext. intros a b _ _. unfold concord, h. cbn [fst snd]. now rewrite !sgn_mono.
  - apply psum_ext. intros a b _ _. unfold h. cbn [fst snd]. now rewrite eqb_mono.
  - apply psum_ext. intros a b _ _. unfold h. cbn [fst snd]. now rewrite eqb_mono.
Qed.
Definition kx : list (option Z) := [Some 1; Some 2; None; Some 2; Some 5; Some 7].
Definition ky : list (option Z) := [Some 3; Some 1; Some 4; None; Some 9; Some 9].
Lemma kendall_case : complete_rows kx ky = [(1,3); (2,1); (5,9); (7,9)] /\
  concordant_minus_discordant (complete_rows kx ky) = 3 /\ untied_x (complete_rows kx ky) = 6 /\ untied_y (complete_rows kx ky) = 5.
Proof. repeat split; reflexivity. Qed.

(** ** KS *)
Definition ramp (n : nat) (k : Z) : list (option f64) := map (fun i => Some (fi (Z.of_nat i + k))) (seq 0 n).
Lemma ks_case :
  (length (finite_values (None :: ramp 35 0)) = 35 /\ length (finite_values (Some (nnanv f64_ops) :: ramp 40 5)) = 40)%nat.
Proof. split; vm_compute; reflexivity. Qed.

(** ** Mann-Whitney *)
Lemma qclamp_range x : (0 <= qclamp01 x <= 1)%Q.
Proof. unfold qclamp01. destruct (Qlt_le_dec x 0); [split; discriminate|]. destruct (Qlt_le_dec 1 x); [split; discriminate|]. lra. Qed.
Lemma mw_ok sort sf x y alt : z_sort_ok sort ->
  let xs := finite_values x in
  let ys := finite_values y in
  let n := inject_Z (zlen (xs ++ ys)) in
  let u1 := (fst (mann_whitney_u sort sf x y alt)) in
  exists u2 mean var,
    (u1 == U xs ys)%Q /\ (u2 == U ys xs)%Q /\ (mean == inject_Z (zlen xs * zlen ys) / 2)%Q /\
    (var == mean / 6 * ((n + 1) - inject_Z (tie_term_below_max (xs ++ ys)) / (n * (n - 1))))%Q /\
    mann_whitney_u sort sf x y alt =
      (u1, if Qeq_dec var 0 then 0%Q
           else qclamp01 (match alt with
                          | TwoSided => 2 * sf (Qminmax.Qmax u1 u2) (mean + (1#2)) var
                          | Less => 1 * sf u2 (mean + (1#2)) var
                          | Greater => 1 * sf u1 (mean + (1#2)) var
                          end)%Q).
Proof.
  intros SO xs ys n u1.
  pose proof (finite_values_nonan x) as Nx. pose proof (finite_values_nonan y) as Ny. fold xs in Nx. fold ys in Ny.
  assert (Nxy : Forall (fun z : f64 => nnan f64_ops z = false) (xs ++ ys)) by (apply Forall_app; auto).
  set (ranks := map (rank2 (xs ++ ys)) (xs ++ ys)).
  exists (inject_Z (zlen xs) * inject_Z (zlen ys) - mw_u1 xs ys)%Q.
  exists (inject_Z (zlen xs) * inject_Z (zlen ys) / 2)%Q.
  exists (mw_variance (inject_Z (zlen xs) * inject_Z (zlen ys) / 2) (zlen (sort ranks)) (mann_whitney_tie_sum (sort ranks))).
  assert (E1 : u1 = mw_u1 xs ys).
  { unfold u1, mann_whitney_u, pl_mann_whitney_u. destruct alt; reflexivity. }
  split; [rewrite E1; now apply u1_ok|]. split; [now apply u2_ok|]. split; [rewrite inject_Z_mult; reflexivity|].
  assert (L : zlen (sort ranks) = zlen (xs ++ ys)).
  { destruct (SO ranks) as [P _]. unfold zlen. rewrite (Permutation_length P). unfold ranks. now rewrite map_length. }
  split.
  - unfold mw_variance. rewrite L. unfold ranks. rewrite (mw_tie sort (xs ++ ys) SO Nxy). reflexivity.
  - rewrite E1. unfold mann_whitney_u, pl_mann_whitney_u. change (keep_finite x) with xs. change (keep_finite y) with ys.
    fold ranks. destruct alt; reflexivity.
Qed.
Lemma mw_p_range sort sf x y alt : (0 <= snd (mann_whitney_u sort sf x y alt) <= 1)%Q.
Proof.
  unfold mann_whitney_u, pl_mann_whitney_u.
  destruct alt; cbn [snd]; match goal with |- context [Qeq_dec ?v 0] => destruct (Qeq_dec v 0) end;
    try (split; discriminate); apply qclamp_range.
Qed.
Lemma mw_tie_witness : let l := [fi 1; fi 1] in
  mann_whitney_tie_sum (demo_zsort (map (rank2 l) l)) = 0 /\ tie_term l = 6.
Proof. split; vm_compute; reflexivity. Qed.
Definition mw_x : list (option f64) := [Some (fi 1); Some (fi 2); None; Some (fi 2); Some (ninf f64_ops)].
Definition mw_y : list (option f64) := [Some (fi 2); Some (fi 5); Some (fi 0)].
Lemma mw_case : wins (finite_values mw_x) (finite_values mw_y) = 3 /\ draws (finite_values mw_x) (finite_values mw_y) = 2 /\
  tie_term_below_max (finite_values mw_x ++ finite_values mw_y) = 24.
Proof. repeat split; vm_compute; reflexivity. Qed.

(** ** F-test *)
Definition anova_rows : list (Z * Q) := [(1, 1#1); (2, 4#1); (1, 3#1); (2, 8#1); (3, 5#1); (3, 5#1)].
Lemma anova_case : (1 < n_groups anova_rows)%Q /\ ~ (ss_within anova_rows == 0)%Q /\ (anova_F anova_rows == 26 # 10)%Q.
Proof. repeat split; try reflexivity. intros H. vm_compute in H. discriminate. Qed.
(** A null value: the code divides that group's sum by the number of all of its rows. *)
Definition anova_null_keys : list (option Z) := [Some 1; Some 1; Some 2; Some 2; Some 1].
Definition anova_null_vals : list (option Q) := [Some 1; Some 3; Some 4; Some 8; None]%Q.
Lemma anova_null : exists q, f_test demo_uniq anova_null_keys anova_null_vals = Some (Some q) /\
  ~ (q == anova_F (complete_rows anova_null_keys anova_null_vals))%Q.
Proof. eexists. split; [vm_compute; reflexivity|]. intros H. vm_compute in H. discriminate. Qed.
(** A null group: counted among the samples and the sums of squares, not among the classes. *)
Definition anova_nullg_keys : list (option Z) := [Some 1; Some 1; Some 2; Some 2; None].
Definition anova_nullg_vals : list (option Q) := [Some 1; Some 3; Some 4; Some 8; Some 2]%Q.
Lemma anova_nullg : exists q, f_test demo_uniq anova_nullg_keys anova_nullg_vals = Some (Some q) /\
  ~ (q == anova_F (complete_rows anova_nullg_keys anova_nullg_vals))%Q.
Proof. eexists. split; [vm_compute; reflexivity|]. intros H. vm_compute in H. discriminate. Qed.

(** ** Chi-squared *)
Definition chi_rows : list (Z * Z) := [(1,1); (1,1); (2,1); (2,2); (1,2); (3,2)].
Lemma chi_case : zlen chi_rows < 2 ^ 32 /\ (pearson_chi2 chi_rows == 4 # 3)%Q /\ freq chi_rows 3 1 = 0%Q.
Proof. repeat split; try reflexivity. Qed.
Lemma chi2_sym uniq rows : uniq_ok uniq -> zlen rows < 2 ^ 32 ->
  exists q q', fst (chi2 uniq (map (fun r => Some (fst r)) rows) (map (fun r => Some (snd r)) rows)) = Some q /\
    fst (chi2 uniq (map (fun r => Some (snd r)) rows) (map (fun r => Some (fst r)) rows)) = Some q' /\ (q == q')%Q.
Proof.
  intros U S. destruct (chi2_ok rows uniq U S) as (q & E & Q1).
  destruct (chi2_ok (map flip rows) uniq U) as (q' & E' & Q2).
  { unfold zlen. rewrite map_length. exact S. }
  rewrite !map_map in E'. cbn [flip fst snd] in E'. exists q, q'. split; [exact E|]. split; [exact E'|].
  rewrite Q1, Q2. symmetry. apply pearson_sym.
Qed.
Lemma chi2_null_case : fst (chi2 demo_uniq [Some 1; Some 2; None; Some 1] [Some 5; Some 6; Some 5; Some 6]) = None.
Proof. vm_compute. reflexivity. Qed.

(** ** Sampling *)
Definition demo_i32 (lo hi : Z) (i : nat) : Z := lo + Z.of_nat i mod (hi - lo).
Lemma demo_i32_ok : uniform_i32 demo_i32.
Proof. intros lo hi i H. unfold demo_i32. pose proof (Z.mod_pos_bound (Z.of_nat i) (hi - lo) ltac:(lia)). lia. Qed.
Definition demo_f64 (lo hi : f64) (i : nat) : f64 := lo.
Lemma flt_R (lo hi : f64) : is_finite lo = true -> is_finite hi = true -> nlt f64_ops lo hi = true -> (B2R lo < B2R hi)%R.
Proof.
  intros F1 F2 L. change (Bltb lo hi = true) in L. rewrite (Bltb_correct _ _ lo hi F1 F2) in L.
  revert L; unfold Flocq.Core.Raux.Rlt_bool; destruct (Flocq.Core.Raux.Rcompare_spec (B2R lo) (B2R hi)); intros; auto; discriminate.
Qed.
Lemma fle_R (lo hi : f64) : is_finite lo = true -> is_finite hi = true -> nle f64_ops lo hi = true -> (B2R lo <= B2R hi)%R.
Proof.
  intros F1 F2 L. change (Bleb lo hi = true) in L. rewrite (Bleb_correct _ _ lo hi F1 F2) in L.
  revert L; unfold Flocq.Core.Raux.Rle_bool; destruct (Flocq.Core.Raux.Rcompare_spec (B2R lo) (B2R hi)); intros; try discriminate;
    try (left; assumption); right; assumption.
Qed.
Lemma demo_f64_ok : uniform_f64 demo_f64.
Proof.
  intros lo hi i F1 F2 L. unfold demo_f64. split; [exact F1|]. split; [apply Rle_refl|]. now apply flt_R.
Qed.
(** A generator that draws [draw_pos] whenever the range allows it. *)
Definition pos_gen (lo hi : f64) (i : nat) : f64 :=
  if nle f64_ops lo draw_pos && nlt f64_ops draw_pos hi then draw_pos else lo.
Lemma pos_gen_ok : uniform_f64 pos_gen.
Proof.
  intros lo hi i F1 F2 L. unfold pos_gen.
  assert (FD : is_finite draw_pos = true) by (vm_compute; reflexivity).
  destruct (nle f64_ops lo draw_pos && nlt f64_ops draw_pos hi) eqn:E.
  - apply andb_prop in E. destruct E as [E1 E2]. split; [exact FD|].
    split; [now apply fle_R|now apply flt_R].
  - split; [exact F1|]. split; [apply Rle_refl|]. now apply flt_R.
Qed.
Lemma perturb_positive_out : exists gen y, uniform_f64 gen /\
  perturb gen [Some (fi 1)] eps_pos true = Ok [Some y] /\ nlt f64_ops eps_pos (nsub f64_ops y (fi 1)) = true.
Proof.
  exists pos_gen, (nadd f64_ops (fi 1) draw_pos).
  destruct perturb_positive_witness as (A & B & _ & C).
  split; [exact pos_gen_ok|]. split; [|exact C].
  unfold perturb. replace (nfinite f64_ops eps_pos) with true by (symmetry; vm_compute; reflexivity). cbn [negb].
  unfold pl_perturb. replace (uniform_f64_ok (nzero f64_ops) (nabs f64_ops eps_pos)) with true by (symmetry; vm_compute; reflexivity).
  cbn [add_draws]. assert (E : pos_gen (nzero f64_ops) (nabs f64_ops eps_pos) 0 = draw_pos).
  { unfold pos_gen.
    assert (T : nle f64_ops (nzero f64_ops) draw_pos && nlt f64_ops draw_pos (nabs f64_ops eps_pos) = true) by (vm_compute; reflexivity).
    rewrite T. reflexivity. }
  now rewrite E.
Qed.
Lemma perturb_zero gen col : perturb gen col (fi 0) false = Err UniformPanic.
Proof.
  unfold perturb. replace (nfinite f64_ops (fi 0)) with true by (symmetry; vm_compute; reflexivity). cbn [negb].
  unfold pl_perturb.
  replace (uniform_f64_ok (fneg (ndiv f64_ops (nabs f64_ops (fi 0)) (fi 2))) (ndiv f64_ops (nabs f64_ops (fi 0)) (fi 2))) with false
    by (symmetry; vm_compute; reflexivity). reflexivity.
Qed.
Lemma perturb_case : nfinite f64_ops (fi (-3)) = true /\ (tiny <= Rabs (B2R (fi (-3))) <= big)%R.
Proof.
  destruct (fin_fi (-3) ltac:(lia)) as [A B]. split; [exact A|]. rewrite B. unfold tiny, big.
  rewrite <- abs_IZR. simpl (Z.abs (-3)). split.
  - apply Rle_trans with (Flocq.Core.Raux.bpow Flocq.Core.Zaux.radix2 0); [apply Flocq.Core.Raux.bpow_le; lia|simpl; apply IZR_le; lia].
  - apply Rle_trans with (Flocq.Core.Raux.bpow Flocq.Core.Zaux.radix2 2); [simpl; apply IZR_le; lia|apply Flocq.Core.Raux.bpow_le; lia].
Qed.

From Coq Require Import Bool List Arith NArith ZArith Lia Permutation Sorted Reals Lra.
From Flocq Require Import Core IEEE754.BinarySingleNaN Mult_error.
From Verif Require Import Num F64 KdModel KdSpec KdProofs KdSound PyKdModel PyKdSpec PyKdProofs KnnExprModel KnnExprSpec KnnExprProofs KnnExprSem
  MetricSpec DigammaModel DigammaSpec DigammaProofs KnnEntModel KnnEntSpec KnnEntProofs.
Import ListNotations.
Open Scope nat_scope.

Lemma count_nth {X} (g : X -> bool) d (l : list X) : length (filter (fun j => g (nth j l d)) (seq 0 (length l))) = length (filter g l).
Proof.
  transitivity (length (filter g (map (fun i => nth i l d) (seq 0 (length l))))); [|now rewrite nth_map_seq].
  generalize (seq 0 (length l)). induction l0 as [|a u IH]; [reflexivity|]. cbn.
  destruct (g (nth a l d)); cbn; now rewrite IH.
Qed.
Lemma filter_pair {X Y} (f : X -> Y) (g : Y -> bool) l : length (filter (fun x => g (f x)) l) = length (filter g (map f l)).
Proof. induction l as [|a l IH]; [reflexivity|]. cbn. destruct (g (f a)); cbn; now rewrite IH. Qed.
Lemma filter_short {X} (g : X -> bool) l : length (filter g l) <= length l.
Proof. induction l as [|b l IH]; cbn; [lia|]. destruct (g b); cbn; lia. Qed.
Lemma filter_shorter {X} (g : X -> bool) a l : In a l -> g a = false -> length (filter g l) < length l.
Proof.
  intros H F. induction l as [|b l IH]; [destruct H|]. pose proof (filter_short g l). cbn. destruct H as [->|H]; [rewrite F; lia|].
  specialize (IH H). destruct (g b); cbn; lia.
Qed.
Lemma count_except (g : nat -> bool) i l : NoDup l -> In i l ->
  length (filter g l) = length (filter (fun j => negb (j =? i) && g j) l) + (if g i then 1 else 0).
Proof.
  induction 1 as [|a l Na ND IH]; intros Hi; [destruct Hi|]. cbn [filter].
  destruct (Nat.eqb_spec a i) as [->|Ne]; cbn [negb andb].
  - assert (E : filter (fun j => negb (j =? i) && g j) l = filter g l).
    { clear - Na. induction l as [|b l IH]; [reflexivity|]. cbn. destruct (Nat.eqb_spec b i) as [->|]; [exfalso; apply Na; now left|]. cbn.
      rewrite IH by (intros H; apply Na; now right). reflexivity. }
    rewrite E. destruct (g i); cbn; lia.
  - destruct Hi as [->|Hi]; [congruence|]. specialize (IH Hi). destruct (g a); cbn [length]; lia.
Qed.
Lemma others_total m rows i P : i < length rows ->
  length (filter (fun p => P (rdist m p (nth i rows []))) rows) = others m rows i P + (if P (rdist m (nth i rows []) (nth i rows [])) then 1 else 0).
Proof.
  intros Hi. rewrite <- (count_nth (fun p => P (rdist m p (nth i rows []))) []).
  apply (count_except (fun j => P (rdist m (nth j rows []) (nth i rows [])))); [apply seq_NoDup|apply in_seq; lia].
Qed.
Lemma max_big (x : f64) : is_finite (Bmult mode_NE (nadd N (none N) (none N) : f64) x) = true -> nlt N x (nmaxv N) = true.
Proof.
  intros F. destruct (double_ok x F) as [Fx E]. rewrite lt_fin; [|exact Fx|reflexivity]. unfold Rltb.
  destruct (Rlt_dec (B2R x) (B2R (nmaxv N : f64))) as [|H]; [reflexivity|exfalso; apply H].
  pose proof (abs_B2R_lt_emax 53 1024 (Bmult mode_NE (nadd N (none N) (none N) : f64) x)) as A. rewrite E in A. apply Rabs_lt_inv in A.
  pose proof (xr_max 53 1024) as M. cbn [nmaxv N f64_ops b_ops].
  rewrite (xr_fin 53 1024) in M by reflexivity. rewrite M. change (bpow radix2 1024) with (bpow radix2 (1 + 1023)) in *.
  rewrite bpow_plus in *. change (bpow radix2 1) with 2%R in *.
  assert (bpow radix2 (1024 - 53) < bpow radix2 1023)%R by (apply bpow_lt; lia). lra.
Qed.

Section Kth.
Variables (n : dname) (rows : list pt) (dim : nat).
Notation m := (metric_of n).
Hypothesis Fin : Forall (fun p => length p = dim /\ all_finite N p) rows.
Hypothesis Mod : moderate m rows.

Lemma dist_fin p q : In p rows -> In q rows -> is_finite (spec_dist N m p q : f64) = true.
Proof. intros Hp Hq. exact (proj1 (double_ok _ (Mod p q Hp Hq))). Qed.
Lemma dist_pos p q : In p rows -> In q rows -> (0 <= rdist m p q)%R.
Proof.
  intros Hp Hq. pose proof (dist_fin p q Hp Hq) as F.
  rewrite Forall_forall in Fin. destruct (Fin q Hq) as [Lq Fq].
  pose proof (dist_nonneg N f64_laws n dim (map (fun r => {| item := tt; row_vec := r |}) rows) q (tt, p)) as H.
  assert (L : nle N (nzero N) (spec_dist N m p q) = true).
  { apply H.
    - apply Forall_map, Forall_forall. intros r Hr. cbn. now apply Fin.
    - intros _. rewrite map_map. apply Forall_map, Forall_forall. intros r Hr. cbn. destruct (Fin r Hr) as [_ Fr].
      eapply Forall_impl; [|exact Fr]. intros x Hx. now apply (finite_nan N f64_laws).
    - exact Lq.
    - exact Fq.
    - rewrite map_map. cbn. apply in_map_iff. exists p. auto.
    - cbn [snd]. now apply (finite_nan N f64_laws). }
  rewrite le_fin in L; [|reflexivity|exact F]. unfold Rleb in L. destruct (Rle_dec _ _) as [G|]; [|discriminate]. exact G.
Qed.
Lemma last_in {X} (l : list X) a : nth_error l (length l - 1) = Some a -> exists u, l = u ++ [a].
Proof.
  destruct l as [|y l] using rev_ind; [discriminate|]. rewrite app_length. cbn [length]. replace (length l + 1 - 1) with (length l) by lia.
  rewrite nth_error_app2, Nat.sub_diag by lia. cbn. intros [= ->]. now exists l.
Qed.

Lemma kth_of_exact k i out : i < length rows -> 1 <= k -> k < length rows ->
  knn_exact N unit m (map (pair tt) rows) (k + 1) (nth i rows []) (nmaxv N) out ->
  exists d : f64, nth_error (map snd out) (length out - 1) = Some d /\
    is_finite (Bmult mode_NE (nadd N (none N) (none N) : f64) d) = true /\ (0 <= B2R d)%R /\ kth_nearest m rows k i (B2R d).
Proof.
  intros Hi K1 Kh (ch & rest & P & E & S & L & B & X).
  set (q := nth i rows []) in *. assert (Hq : In q rows) by (now apply nth_In).
  assert (InR : forall p, In p (ch ++ rest) -> In (snd p) rows).
  { intros p Hp. apply (Permutation_in p (Permutation_sym P)) in Hp. apply in_map_iff in Hp. destruct Hp as (r & <- & Hr). exact Hr. }
  assert (Lo : length out = k + 1).
  { destruct rest as [|p rest].
    - assert (Lc : length out = length ch) by (rewrite E; apply map_length). apply Permutation_length in P. rewrite app_nil_r, map_length in P. lia.
    - apply (X p); [now left|]. apply max_big. apply Mod; [apply InR, in_or_app; right; now left|exact Hq]. }
  destruct (nth_error (map snd out) (length out - 1)) as [d|] eqn:Ed.
  2:{ apply nth_error_None in Ed. rewrite map_length in Ed. lia. }
  exists d. split; [reflexivity|].
  rewrite <- (map_length snd out) in Ed. destruct (last_in _ _ Ed) as (u & Eu).
  assert (Ch : map snd out = map (fun p => spec_dist N m (snd p) q) ch) by (rewrite E, map_map; reflexivity).
  assert (Hd : exists p, In p ch /\ d = spec_dist N m (snd p) q).
  { assert (H : In d (map snd out)) by (rewrite Eu; apply in_or_app; right; now left). rewrite Ch in H. apply in_map_iff in H. destruct H as (p & <- & Hp). eauto. }
  destruct Hd as (p0 & Hp0 & Ed0). assert (Hp0' : In (snd p0) rows) by (apply InR, in_or_app; now left).
  assert (Fd : is_finite d = true) by (rewrite Ed0; now apply dist_fin).
  assert (Nd : (0 <= B2R d)%R) by (rewrite Ed0; now apply (dist_pos (snd p0) q)).
  split; [rewrite Ed0; now apply Mod|]. split; [exact Nd|].
  (* all chosen are at most d, all left out at least d *)
  assert (C1 : forall p, In p ch -> (rdist m (snd p) q <= B2R d)%R).
  { intros p Hp. assert (Sd : StronglySorted (fun a b => nle N a b = true) (map snd out)).
    { clear - S. induction S as [|a l S IH F]; cbn; constructor; [exact IH|]. clear - F. induction F; cbn; constructor; auto. }
    rewrite Eu in Sd. assert (Hin : In (spec_dist N m (snd p) q) (u ++ [d])) by (rewrite <- Eu, Ch; apply in_map_iff; eauto).
    assert (LE : nle N (spec_dist N m (snd p) q) d = true).
    { apply in_app_or in Hin. destruct Hin as [Hin|[Hin|[]]].
      - clear - Sd Hin. induction u as [|a u IH]; [destruct Hin|]. cbn in Sd. inversion Sd as [|? ? S2 F2]; subst. destruct Hin as [->|Hin]; [|now apply IH].
        rewrite Forall_forall in F2. apply F2. apply in_or_app. right. now left.
      - rewrite <- Hin. apply (le_refl N f64_laws). now apply (finite_nan N f64_laws). }
    rewrite le_fin in LE; [|apply dist_fin; [apply InR, in_or_app; now left|exact Hq]|exact Fd]. unfold Rleb in LE. unfold rdist. destruct (Rle_dec _ _); [assumption|discriminate]. }
  assert (C2 : forall p, In p rest -> (B2R d <= rdist m (snd p) q)%R).
  { intros p Hp. assert (Hp' : In (snd p) rows) by (apply InR, in_or_app; now right).
    destruct (X p Hp) as [_ F]; [apply max_big; now apply Mod|]. rewrite Forall_forall in F.
    assert (Ho : exists a, In a out /\ snd a = d).
    { assert (H : In d (map snd out)) by (rewrite Eu; apply in_or_app; right; now left). apply in_map_iff in H. destruct H as (a & Ea & Ha). eauto. }
    destruct Ho as (a & Ha & <-). specialize (F a Ha). rewrite le_fin in F; [|exact Fd|now apply dist_fin]. unfold Rleb in F. unfold rdist. destruct (Rle_dec _ _); [assumption|discriminate]. }
  assert (TOT : forall g : R -> bool, length (filter (fun p => g (rdist m p q)) rows) =
     length (filter (fun p => g (rdist m (snd p) q)) ch) + length (filter (fun p => g (rdist m (snd p) q)) rest)).
  { intros g. rewrite <- app_length, <- filter_app.
    etransitivity; [|exact (Permutation_length (filter_perm (fun p : unit * pt => g (rdist m (snd p) q)) _ _ P))].
    exact (filter_pair (pair tt) (fun p : unit * pt => g (rdist m (snd p) q)) rows). }
  assert (Self : rdist m q q = 0%R).
  { rewrite Forall_forall in Fin. destruct (self_distance m q (proj2 (Fin q Hq))) as (s & Es). unfold rdist. rewrite Es. reflexivity. }
  assert (Lc : length ch = k + 1) by (rewrite <- Lo, E, map_length; reflexivity).
  split.
  - pose proof (others_total m rows i (fun x => Rltb x (B2R d)) Hi) as O. cbn beta in O. fold q in O. rewrite Self in O. pose proof (TOT (fun x => Rltb x (B2R d))) as T. cbn beta in T.
    assert (R0 : length (filter (fun p : unit * pt => Rltb (rdist m (snd p) q) (B2R d)) rest) = 0).
    { clear - C2. induction rest as [|p r IH]; [reflexivity|]. cbn [filter]. unfold Rltb at 1. specialize (C2 p (or_introl eq_refl)) as H2. destruct (Rlt_dec _ _); [lra|]. apply IH. intros; apply C2. now right. }
    destruct (Rlt_dec 0 (B2R d)) as [Pd|Zd].
    + assert (R1 : length (filter (fun p : unit * pt => Rltb (rdist m (snd p) q) (B2R d)) ch) < length ch).
      { clear - Hp0 Ed0. assert (Ff : Rltb (rdist m (snd p0) q) (B2R d) = false) by (unfold Rltb, rdist; rewrite Ed0; destruct (Rlt_dec _ _); [lra|reflexivity]).
        exact (filter_shorter (fun p : unit * pt => Rltb (rdist m (snd p) q) (B2R d)) p0 ch Hp0 Ff). }
      assert (Z0 : Rltb 0 (B2R d) = true) by (unfold Rltb; destruct (Rlt_dec 0 (B2R d)); [reflexivity|lra]). rewrite Z0 in O. pose proof (eq_trans (eq_sym T) O). lia.
    + assert (Z0 : Rltb 0 (B2R d) = false) by (unfold Rltb; destruct (Rlt_dec 0 (B2R d)); [lra|reflexivity]). rewrite Z0 in O.
      assert (R1 : length (filter (fun p : unit * pt => Rltb (rdist m (snd p) q) (B2R d)) ch) = 0).
      { assert (Z : forall p, In p ch -> In (snd p) rows) by (intros; apply InR, in_or_app; now left).
        clear - Z Zd Hq Fin Mod. induction ch as [|p r IH]; [reflexivity|]. cbn [filter]. unfold Rltb at 1. pose proof (dist_pos (snd p) q (Z p (or_introl eq_refl)) Hq). destruct (Rlt_dec _ _); [lra|]. apply IH. intros; apply Z. now right. }
      pose proof (eq_trans (eq_sym T) O). lia.
  - pose proof (others_total m rows i (fun x => Rleb x (B2R d)) Hi) as O. cbn beta in O. fold q in O. rewrite Self in O. pose proof (TOT (fun x => Rleb x (B2R d))) as T. cbn beta in T.
    assert (R1 : length (filter (fun p : unit * pt => Rleb (rdist m (snd p) q) (B2R d)) ch) = length ch).
    { clear - C1. induction ch as [|p r IH]; [reflexivity|]. cbn [filter]. unfold Rleb at 1. specialize (C1 p (or_introl eq_refl)) as H1. destruct (Rle_dec _ _); [|lra]. cbn [length]. f_equal. apply IH. intros; apply C1. now right. }
    assert (Z0 : Rleb 0 (B2R d) = true) by (unfold Rleb; destruct (Rle_dec 0 (B2R d)); [reflexivity|lra]). rewrite Z0 in O. pose proof (eq_trans (eq_sym T) O). lia.
Qed.
End Kth.

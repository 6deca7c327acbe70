(** Facts about the binary64 instance: totality, length, monotonicity, debug-profile panic, and the
    treatment of nulls and invalid weights. *)
From Coq Require Import Bool List ZArith QArith Arith Lia Sorted.
From Verif Require Import Num F64 IsoModel IsoSpec IsoProofs IsoQ.
Import ListNotations.
Open Scope nat_scope.

Lemma sorted_fmono z : StronglySorted (fun a b : f64 => nle f64_ops a b = true) z -> no_nan z -> fmonotone true z.
Proof.
  induction 1 as [|a z S IH F]; intros N i j x y L Hx Hy.
  - destruct i; discriminate.
  - inversion N as [|? ? Na N']; subst. destruct i as [|i], j as [|j]; cbn in Hx, Hy; try lia.
    + injection Hx as <-. injection Hy as <-. exact (le_refl _ f64_laws a Na).
    + injection Hx as <-. rewrite Forall_forall in F. apply F. eapply nth_error_In; eassumption.
    + exact (IH N' i j x y ltac:(lia) Hx Hy).
Qed.
Lemma fmono_rev z : fmonotone true z -> fmonotone false (rev z).
Proof.
  intros M i j a b L Ha Hb.
  assert (Li : (j < length z)%nat) by (rewrite <- rev_length; apply nth_error_Some; congruence).
  rewrite nth_error_rev in Ha, Hb by lia.
  exact (M (length z - S j)%nat (length z - S i)%nat b a ltac:(lia) Hb Ha).
Qed.
Lemma fmono_small inc z : length z <= 1 -> no_nan z -> fmonotone inc z.
Proof.
  intros L N i j a b Lij Ha Hb.
  assert (i < length z) by (apply nth_error_Some; congruence).
  assert (j < length z) by (apply nth_error_Some; congruence).
  assert (i = j) by lia. subst j. assert (a = b) by congruence. subst b.
  unfold no_nan in N. rewrite Forall_forall in N. specialize (N a (nth_error_In _ _ Ha)).
  destruct inc; exact (le_refl _ f64_laws a N).
Qed.

Lemma run_f64 (x w : list f64) : 2 <= length x -> length w = length x ->
  exists o : list f64, iso_run (T := f64) (nadd f64_ops) (nmul f64_ops) (ndiv f64_ops) (fun a b : f64 => nle f64_ops b a) false x w = Some o /\
    length o = length x /\ (no_nan o -> fmonotone true o).
Proof.
  intros L Lw.
  destruct (run_any (T := f64) (nadd f64_ops) (nmul f64_ops) (ndiv f64_ops) (fun a b : f64 => nle f64_ops b a) x w L Lw)
    as (s & R & Ch & Lo & Ne & _).
  exists (outs s). split; [exact R|]. split; [exact Lo|]. intros N. apply sorted_fmono; [|exact N].
  apply (outs_sorted (fun a b : f64 => nle f64_ops b a) (fun a b : f64 => nle f64_ops a b = true) (fun a : f64 => nnan f64_ops a = false)).
  - intros a Ha. exact (le_refl _ f64_laws a Ha).
  - intros a b c. exact (le_trans _ f64_laws a b c).
  - intros a b Na Nb H. destruct (le_total _ f64_laws a b Na Nb) as [C|C]; [exact C|].
    exfalso. rewrite C in H. discriminate.
  - apply Forall_forall. intros b Hb. unfold no_nan in N. rewrite Forall_forall in N, Ne.
    apply N, outs_in; [exact Hb|]. now apply Ne.
  - exact Ch.
Qed.

Theorem isotonic_f64_total inc (y w : list f64) :
  length w = length y -> Forall (fun a : f64 => nle f64_ops a (nzero f64_ops) = false) w ->
  exists x : list f64, isotonic_f64 false (map Some y) (Some (map Some w)) inc = IsoOk (map Some x) /\
    length x = length y /\ (no_nan x -> fmonotone inc x).
Proof.
  intros Lw F. unfold isotonic_f64, pl_isotonic. rewrite map_length.
  destruct (length y <=? 1) eqn:E.
  { apply Nat.leb_le in E. exists y. split; [reflexivity|]. split; [reflexivity|]. now apply fmono_small. }
  apply Nat.leb_gt in E. rewrite !no_nulls_some, map_length, Lw, Nat.eqb_refl. cbn [negb].
  assert (X : existsb (fun a : f64 => nle f64_ops a (nzero f64_ops)) w = false).
  { apply not_true_iff_false. intros H. apply existsb_exists in H. destruct H as (a & Ha & Hb).
    rewrite Forall_forall in F. specialize (F a Ha). congruence. }
  rewrite X. destruct inc; cbn [rev_if].
  - destruct (run_f64 y w) as (x & R & Lx & M); auto. rewrite R. exists x. auto.
  - destruct (run_f64 (rev y) (rev w)) as (x & R & Lx & M); rewrite ?rev_length in *; auto.
    rewrite R. exists (rev x). rewrite rev_length. split; [reflexivity|]. split; [exact Lx|].
    intros N. apply fmono_rev, M. unfold no_nan in *. rewrite <- (rev_involutive x). apply Forall_rev. exact N.
Qed.

Theorem isotonic_f64_checked inc (y w : list f64) : 2 <= length y ->
  length w = length y -> Forall (fun a : f64 => nle f64_ops a (nzero f64_ops) = false) w ->
  isotonic_f64 true (map Some y) (Some (map Some w)) inc = IsoPanic.
Proof.
  intros L Lw F. unfold isotonic_f64, pl_isotonic. rewrite map_length.
  rewrite (proj2 (Nat.leb_gt _ _)) by lia.
  rewrite !no_nulls_some, map_length, Lw, Nat.eqb_refl. cbn [negb].
  assert (X : existsb (fun a : f64 => nle f64_ops a (nzero f64_ops)) w = false).
  { apply not_true_iff_false. intros H. apply existsb_exists in H. destruct H as (a & Ha & Hb).
    rewrite Forall_forall in F. specialize (F a Ha). congruence. }
  rewrite X.
  destruct (run_any (T := f64) (nadd f64_ops) (nmul f64_ops) (ndiv f64_ops) (fun a b : f64 => nle f64_ops b a) (rev_if inc y) (rev_if inc w)) as (s & _ & _ & _ & _ & R).
  - destruct inc; cbn; rewrite ?rev_length; lia.
  - destruct inc; cbn; rewrite ?rev_length; lia.
  - rewrite R. reflexivity.
Qed.

(** Invalid input is reported as an error, never as a panic: a null in the data, a null or a
    non-positive weight, or a weight column of another length. *)
Theorem isotonic_f64_errors checked inc (y : list (option f64)) (wt : option (list (option f64))) : 2 <= length y ->
  (In None y \/ exists w, wt = Some w /\ (length w <> length y \/ In None w \/
      exists a : f64, In (Some a) w /\ nle f64_ops a (nzero f64_ops) = true)) ->
  isotonic_f64 checked y wt inc = IsoErr.
Proof.
  intros L H. unfold isotonic_f64, pl_isotonic. rewrite (proj2 (Nat.leb_gt _ _)) by lia.
  destruct (no_nulls y) as [yv|] eqn:Ey; [|reflexivity].
  pose proof (no_nulls_length _ _ Ey) as Ly.
  destruct H as [H|(w & -> & H)]; [rewrite (no_nulls_none _ H) in Ey; discriminate|].
  destruct (length w =? length yv) eqn:E; cbn [negb]; [|reflexivity]. apply Nat.eqb_eq in E.
  destruct H as [H|H]; [lia|].
  destruct (no_nulls w) as [wv|] eqn:Ew; [|reflexivity].
  destruct H as [H|(a & Ha & Hb)]; [rewrite (no_nulls_none _ H) in Ew; discriminate|].
  assert (In a wv).
  { clear - Ha Ew. revert wv Ew Ha. induction w as [|[c|] w IH]; cbn; intros wv Ew Ha; [destruct Ha| |discriminate].
    destruct (no_nulls w); [|discriminate]. injection Ew as <-. destruct Ha as [Ha|Ha]; [injection Ha as ->; now left|].
    right. now apply IH. }
  assert (X : existsb (fun a : f64 => nle f64_ops a (nzero f64_ops)) wv = true) by (apply existsb_exists; exists a; auto).
  rewrite X. reflexivity.
Qed.

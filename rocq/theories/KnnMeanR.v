(** The (weighted) neighbour average of [knn_mean] in exact real arithmetic. *)
From Coq Require Import Bool List Reals Lra.
From Verif Require Import Num KnnExprModel KnnExprSpec.
Import ListNotations.

(** ** The average in exact arithmetic *)
Section Mean.
Local Open Scope R_scope.
Definition R_ops : NumOps := {|
  carrier := R; nzero := 0; none := 1; nadd := Rplus; nsub := Rminus; nmul := Rmult; ndiv := Rdiv;
  nsqrt := sqrt; nabs := Rabs;
  nlt := fun x y => if Rlt_dec x y then true else false;
  nle := fun x y => if Rle_dec x y then true else false;
  nnan := fun _ => false; nfinite := fun _ => true;
  nmaxv := 0; nminv := 0; neps := / 2 ^ 52; ninf := 0; nnanv := 0 |}.
Definition sumR (f : R * R -> R) (l : list (R * R)) : R := fold_right (fun x acc => f x + acc) 0 l.
Lemma total_sum f l : total R_ops f l = sumR f l.
Proof.
  unfold total. cbn [R_ops carrier nadd nzero].
  assert (G : forall acc, fold_left (fun a x => a + f x) l acc = acc + sumR f l).
  { induction l as [|x l IH]; intros acc; simpl; [lra|]. rewrite IH. lra. }
  rewrite G. lra.
Qed.
Lemma wmean_between (w : R * R -> R) lo hi l : l <> [] ->
  Forall (fun x => 0 < w x /\ lo <= fst x <= hi) l ->
  lo <= sumR (fun x => w x * fst x) l / sumR w l <= hi.
Proof.
  intros NE F.
  assert (G : 0 <= sumR w l /\ lo * sumR w l <= sumR (fun x => w x * fst x) l <= hi * sumR w l).
  { clear NE. induction F as [|x l [W B] F IH]; simpl; [lra|]. destruct IH as (I1 & I2 & I3).
    repeat split; try lra; nra. }
  assert (P : 0 < sumR w l).
  { destruct F as [|x l [W B] F]; [congruence|]. simpl. clear G NE.
    assert (0 <= sumR w l) by (induction F as [|y l [Wy _] F IH]; simpl; lra). lra. }
  destruct G as (G1 & G2 & G3). unfold Rdiv. split.
  - apply (Rmult_le_reg_r (sumR w l)); [exact P|]. rewrite Rmult_assoc, Rinv_l by lra. lra.
  - apply (Rmult_le_reg_r (sumR w l)); [exact P|]. rewrite Rmult_assoc, Rinv_l by lra. lra.
Qed.
Lemma num_INR n : num_of_nat R_ops n = INR n.
Proof. induction n as [|n IH]; [reflexivity|]. rewrite S_INR. cbn [num_of_nat]. rewrite IH. reflexivity. Qed.
Lemma sum_one l : sumR (fun _ => 1) l = INR (length l).
Proof. induction l as [|x l IH]; [reflexivity|]. cbn [length]. rewrite S_INR. simpl. rewrite IH. lra. Qed.

Lemma mean_between weighted minb lo hi (near : list (R * R)) : near <> [] ->
  Forall (fun x => 0 <= snd x /\ minb <= snd x /\ lo <= fst x <= hi) near ->
  lo <= knn_mean R_ops weighted minb near <= hi.
Proof.
  intros NE F. unfold knn_mean. destruct weighted.
  - rewrite !total_sum. cbn [R_ops carrier nmul ndiv none nadd nle neps].
    apply (wmean_between (fun x => if (if Rle_dec minb (/ 2 ^ 52) then true else false) then 1 / (1 + snd x) else 1 / snd x) lo hi near NE).
    eapply Forall_impl; [|exact F]. intros x (H0 & H1 & H2). split; [|exact H2].
    destruct (Rle_dec minb (/ 2 ^ 52)) as [L|L].
    + apply Rdiv_lt_0_compat; lra.
    + apply Rdiv_lt_0_compat; [lra|]. assert (0 < / 2 ^ 52) by (apply Rinv_0_lt_compat, pow_lt; lra). lra.
  - rewrite total_sum, num_INR. cbn [R_ops carrier ndiv]. rewrite <- sum_one.
    assert (E : sumR fst near = sumR (fun x => 1 * fst x) near).
    { clear. induction near as [|x l IH]; simpl; [reflexivity|]. rewrite IH. lra. }
    rewrite E. apply (wmean_between (fun _ => 1) lo hi near NE).
    eapply Forall_impl; [|exact F]. intros x (H0 & H1 & H2). lra.
Qed.
End Mean.


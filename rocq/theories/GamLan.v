(* The Lanczos formula of ln_gamma: within 1e-16 of the logarithm of the integral. *)
From Coq Require Import List ZArith QArith Reals Qreals Lra Lia.
From Coquelicot Require Import Coquelicot.
From Verif Require Import NormModel NormPoly NormPieces NormZero GamSpec GamModel GamInt.
Import ListNotations.
Local Open Scope R_scope.

(** ** polynomials with non-negative coefficients *)
Definition nnc (p : poly) : bool := forallb (fun c => Z.leb 0 c) (cs p).
Lemma evz_nonneg p x : forallb (fun c => Z.leb 0 c) p = true -> 0 <= x -> 0 <= evZ p x.
Proof.
  intros H Hx. induction p as [|a p IH]; cbn [forallb evZ] in *; [lra|].
  apply andb_prop in H as [Ha Hp]. apply Z.leb_le, IZR_le in Ha.
  apply Rplus_le_le_0_compat; auto. apply Rmult_le_pos; auto.
Qed.
Lemma ev_nonneg p x : nnc p = true -> 0 <= x -> 0 <= ev p x.
Proof.
  intros H Hx. unfold ev. apply Rmult_le_pos; [apply evz_nonneg; auto|].
  left. apply Rinv_0_lt_compat. apply pos_pos.
Qed.

(** p(x + 1) *)
Fixpoint zshift (p : list Z) : list Z :=
  match p with
  | [] => []
  | a :: p' => let q := zshift p' in zadd (a :: q) q
  end.
Definition pshift (p : poly) : poly := Poly (zshift (cs p)) (dn p).
Lemma evz_shift p x : evZ (zshift p) x = evZ p (x + 1).
Proof.
  induction p as [|a p IH]; cbn [zshift evZ]; auto. cbv zeta.
  rewrite evz_add. cbn [evZ]. rewrite IH. ring.
Qed.
Lemma ev_shift p x : ev (pshift p) x = ev p (x + 1).
Proof. unfold ev, pshift. cbn [cs dn]. rewrite evz_shift. auto. Qed.

(** growth of such polynomials *)
Lemma evz_mono p x y : forallb (fun c => Z.leb 0 c) p = true -> 0 <= x <= y -> evZ p x <= evZ p y.
Proof.
  intros H Hx. induction p as [|a p IH]; cbn [forallb evZ] in *; [lra|].
  apply andb_prop in H as [Ha Hp]. pose proof (evz_nonneg p x Hp ltac:(lra)).
  apply Rplus_le_compat_l. apply Rmult_le_compat; try lra. auto.
Qed.
Lemma evz_grow p x : forallb (fun c => Z.leb 0 c) p = true -> 0 < x ->
  evZ p (x + 1) <= (1 + / x) ^ (length p - 1) * evZ p x.
Proof.
  intros H Hx. assert (Hi : 0 < / x) by (apply Rinv_0_lt_compat; auto).
  induction p as [|a p IH]; [cbn; lra|].
  cbn [forallb] in H. apply andb_prop in H as [Ha Hp]. apply Z.leb_le, IZR_le in Ha.
  destruct p as [|b p]; [cbn; lra|].
  specialize (IH Hp). set (q := b :: p) in *. change (evZ (a :: q) (x + 1)) with (IZR a + (x + 1) * evZ q (x + 1)).
  change (evZ (a :: q) x) with (IZR a + x * evZ q x).
  replace (length (a :: q) - 1)%nat with (S (length q - 1)) by (cbn [length]; unfold q; cbn [length]; lia).
  set (n := (length q - 1)%nat) in *. cbn [pow].
  assert (P1 : 1 <= (1 + / x) ^ n) by (apply pow_R1_Rle; lra).
  pose proof (evz_nonneg q x Hp ltac:(lra)) as Q0.
  assert (E : (x + 1) * evZ q (x + 1) <= (x + 1) * ((1 + / x) ^ n * evZ q x)) by (apply Rmult_le_compat_l; lra).
  replace ((x + 1) * ((1 + / x) ^ n * evZ q x)) with ((1 + / x) * (1 + / x) ^ n * (x * evZ q x)) in E by (field; lra).
  assert (1 * IZR a <= (1 + / x) * (1 + / x) ^ n * IZR a).
  { apply Rmult_le_compat_r; auto. replace 1 with (1 * 1) at 1 by ring. apply Rmult_le_compat; lra. }
  lra.
Qed.
Lemma evz_der p x : forallb (fun c => Z.leb 0 c) p = true -> 0 <= x ->
  0 <= evZ (zder p) x /\ x * evZ (zder p) x <= INR (length p) * evZ p x.
Proof.
  intros H Hx. induction p as [|a p IH]; [cbn; lra|].
  cbn [forallb] in H. apply andb_prop in H as [Ha Hp]. apply Z.leb_le, IZR_le in Ha.
  destruct (IH Hp) as [I1 I2]. cbn [zder]. rewrite evz_add. cbn [evZ].
  pose proof (evz_nonneg p x Hp Hx) as Q0.
  assert (0 <= x * evZ (zder p) x) by (apply Rmult_le_pos; auto). split; [lra|].
  cbn [length]. rewrite S_INR. pose proof (pos_INR (length p)) as N0.
  assert (0 <= INR (length p) * IZR a) by (apply Rmult_le_pos; auto).
  apply Rmult_le_compat_l with (r := x) in I2; auto. lra.
Qed.

(** ** the Lanczos sum as a quotient of polynomials *)
Definition dks : poly := of_q (GAMMA_D0 :: GAMMA_DK).
Definition step_pq (k d : Z) (pq : list Z * list Z) : list Z * list Z :=
  let (p, q) := pq in
  let l := [k; 1%Z] in
  (zadd (zmul p l) (zscal d q), zmul q l).
Fixpoint pq_of (k : Z) (ds : list Z) (pq : list Z * list Z) : list Z * list Z :=
  match ds with
  | [] => pq
  | d :: ds' => pq_of (k + 1) ds' (step_pq k d pq)
  end.
Definition pq0 : list Z * list Z :=
  pq_of 0 (tl (cs dks)) ([hd 0%Z (cs dks)], [1%Z]).
Definition numN : list Z := Eval vm_compute in fst pq0.
Definition pN : poly := Poly numN (10 ^ 29)%positive.
Definition pM : poly := Eval vm_compute in pshift pN.

Lemma dks_dn : dn dks = (10 ^ 29)%positive /\ of_q_exact (GAMMA_D0 :: GAMMA_DK) = true.
Proof. split; vm_compute; reflexivity. Qed.

Definition denQ : list Z := Eval vm_compute in snd pq0.
Lemma pq0_eq : pq_of 0 (tl (cs dks)) ([hd 0%Z (cs dks)], [1%Z]) = (numN, denQ).
Proof. vm_compute. reflexivity. Qed.
Lemma numN_nn : forallb (fun c => Z.leb 0 c) numN = true.
Proof. vm_compute. reflexivity. Qed.
Lemma denQ_nn : forallb (fun c => Z.leb 0 c) denQ = true.
Proof. vm_compute. reflexivity. Qed.

Lemma exact_all d p : forallb (fun a => Z.pos d mod Z.pos (Qden a) =? 0)%Z p = true ->
  Forall2 (fun q z => Q2R q = IZR z / IZR (Z.pos d)) p (map (fun a => Qnum a * (Z.pos d / Z.pos (Qden a)))%Z p).
Proof.
  induction p as [|a p IH]; cbn [forallb map]; intros H; constructor.
  - apply andb_prop in H as [Ha _]. apply Z.eqb_eq in Ha.
    assert (Hd : (Z.pos d = Z.pos (Qden a) * (Z.pos d / Z.pos (Qden a)))%Z) by (apply Z.div_exact; lia).
    set (k := (Z.pos d / Z.pos (Qden a))%Z) in *. unfold Q2R. rewrite mult_IZR.
    rewrite Hd, mult_IZR.
    assert (IZR k <> 0) by (apply not_0_IZR; intros ->; lia). pose proof (pos_neq (Qden a)).
    field. split; auto.
  - apply IH. apply andb_prop in H. tauto.
Qed.

Lemma dk_pq x c : 0 < x -> 0 < c -> forall ds zs, Forall2 (fun q z => Q2R q = IZR z / c) ds zs ->
  forall k p q s, (0 <= k)%Z -> 0 < evZ q x -> s = evZ p x / (c * evZ q x) ->
  let pq := pq_of k zs (p, q) in
  0 < evZ (snd pq) x /\
  dk_sum (fun k => x + k - 1) (IZR k + 1) ds s = evZ (fst pq) x / (c * evZ (snd pq) x).
Proof.
  intros Hx Hc ds zs HF. induction HF as [|d z ds zs Hd HF IH]; intros k p q s Hk Hq Hs; cbn [pq_of dk_sum].
  - cbn [fst snd]. auto.
  - assert (Hk' : 0 <= IZR k) by (apply IZR_le; auto).
    specialize (IH (k + 1)%Z (zadd (zmul p [k; 1%Z]) (zscal z q)) (zmul q [k; 1%Z]) (s + Q2R d / (x + (IZR k + 1) - 1))).
    destruct IH as [I1 I2].
    + lia.
    + rewrite evz_mul. apply Rmult_lt_0_compat; auto. cbn [evZ]. lra.
    + rewrite evz_add, evz_scal, !evz_mul. cbn [evZ]. rewrite Hs, Hd. field. repeat split; lra.
    + split; [exact I1|]. rewrite plus_IZR in I2. exact I2.
Qed.

Definition lanc (x : R) : R := dk_sum (fun k => x + k - 1) 1 GAMMA_DK (Q2R GAMMA_D0).
Lemma forall2_hd (P : Q -> Z -> Prop) a l m : Forall2 P (a :: l) m -> P a (hd 0%Z m) /\ Forall2 P l (tl m).
Proof. intros H. inversion H; subst. cbn. auto. Qed.
Lemma of_q_all p : of_q_exact p = true ->
  Forall2 (fun q z => Q2R q = IZR z / IZR (Z.pos (dn (of_q p)))) p (cs (of_q p)).
Proof. unfold of_q, of_q_exact. cbn [cs dn]. apply exact_all. Qed.
Lemma dks_all : Forall2 (fun q z => Q2R q = IZR z / IZR (Z.pos (10 ^ 29))) (GAMMA_D0 :: GAMMA_DK) (cs dks).
Proof. destruct dks_dn as [Hdn Hex]. rewrite <- Hdn. apply of_q_all. exact Hex. Qed.

Lemma lanc_gen c d0 z0 ds zs p q x : 0 < x -> 0 < c -> Q2R d0 = IZR z0 / c ->
  Forall2 (fun q z => Q2R q = IZR z / c) ds zs -> pq_of 0 zs ([z0], [1%Z]) = (p, q) ->
  0 < evZ q x /\ dk_sum (fun k => x + k - 1) 1 ds (Q2R d0) = evZ p x / c / evZ q x.
Proof.
  intros Hx Hc H0 HF E.
  pose proof (dk_pq x c Hx Hc _ _ HF 0 [z0] [1%Z] (Q2R d0)) as P. cbv zeta in P.
  rewrite E in P. cbn [fst snd] in P. replace (IZR 0 + 1) with 1 in P by ring.
  destruct P as [P1 P2].
  - lia.
  - cbn [evZ]. lra.
  - rewrite H0. cbn [evZ]. field. lra.
  - split; auto. rewrite P2. field. lra.
Qed.

Lemma lanc_eq x : 0 < x -> 0 < evZ denQ x /\ lanc x = ev pN x / evZ denQ x.
Proof.
  intros Hx. destruct (forall2_hd _ _ _ _ dks_all) as [H0 HF].
  exact (lanc_gen _ _ _ _ _ _ _ x Hx (pos_pos _) H0 HF pq0_eq).
Qed.

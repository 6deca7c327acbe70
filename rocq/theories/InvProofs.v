(** Facts about the inverse of the incomplete beta function and Student's quantile. *)
From Coq Require Import Reals ZArith Lra Lia Psatz.
From Verif Require Import MetricSpec GamModel TtestModel InvModel.
Local Open Scope R_scope.

(** *** The step search *)
Lemma cut_some n : forall p q prev g pn g', 0 < g <= 1 -> cut n p q prev g = Some (pn, g') ->
  0 < g' <= g /\ pn = p - g' * q /\ 0 <= pn <= 1 /\ (pn - p) * (pn - p) < prev.
Proof.
  induction n as [|n IH]; intros p q prev g pn g' G; cbn [cut]; [discriminate|].
  assert (R : cut n p q prev (g / 3) = Some (pn, g') -> 0 < g' <= g /\ pn = p - g' * q /\ 0 <= pn <= 1 /\ (pn - p) * (pn - p) < prev).
  { intro H. apply IH in H; [|lra]. destruct H as (A & B & C & D). repeat split; try easy; lra. }
  destruct (Rlt_dec _ _) as [L|]; [|exact R]. destruct (Rle_dec 0 _); [|exact R]. destruct (Rle_dec _ 1); [|exact R].
  intros [= <- <-]. repeat split; try lra.
Qed.
Lemma third_pow g n : g / 3 * / 3 ^ n = g * / 3 ^ S n.
Proof. cbn [pow]. field. apply pow_nonzero. lra. Qed.
Lemma third_small e : 0 < e -> exists n, / 3 ^ n < e.
Proof.
  intro E. destruct (pow_lt_1_zero (/ 3)) with (y := e) as [n H]; [rewrite Rabs_pos_eq; lra|exact E|].
  exists n. specialize (H n (le_n n)). rewrite Rabs_pos_eq in H by (apply pow_le; lra). rewrite <- Rinv_pow in H by lra. exact H.
Qed.

Lemma move_S f n p q prev tol g : move (S f) n p q prev tol g =
      match cut n p q prev g with
      | None => None
      | Some (pn, g') =>
          if Rle_dec prev tol then Some (true, pn, g')
          else if Rle_dec (q * q) tol then Some (true, pn, g')
          else if Req_EM_T pn 0 then move f n p q prev tol (g' / 3)
          else if Req_EM_T pn 1 then move f n p q prev tol (g' / 3)
          else Some (false, pn, g')
      end.
Proof. reflexivity. Qed.
Section Search.
Variables (p q prev : R).
Hypotheses (P : 0 < p < 1) (V : 0 < prev).
Definition good (g : R) : Prop := g * q * (g * q) < prev /\ 0 < p - g * q < 1.
Lemma good_small : exists e, 0 < e /\ forall g, 0 < g < e -> good g.
Proof.
  set (d := Rmin (Rmin p (1 - p)) (Rmin prev 1)).
  assert (D : 0 < d /\ d <= p /\ d <= 1 - p /\ d <= prev /\ d <= 1).
  { unfold d. repeat split; [repeat apply Rmin_glb_lt; lra| | | |].
    - eapply Rle_trans; [apply Rmin_l|apply Rmin_l]. - eapply Rle_trans; [apply Rmin_l|apply Rmin_r].
    - eapply Rle_trans; [apply Rmin_r|apply Rmin_l]. - eapply Rle_trans; [apply Rmin_r|apply Rmin_r]. }
  pose proof (Rabs_pos q) as Q. exists (d / (Rabs q + 1)). split; [apply Rdiv_lt_0_compat; lra|].
  intros g [G0 G]. assert (B : Rabs (g * q) < d).
  { rewrite Rabs_mult, (Rabs_pos_eq g) by lra. apply Rle_lt_trans with (g * (Rabs q + 1)); [nra|].
    apply (Rmult_lt_compat_r (Rabs q + 1)) in G; [|lra]. unfold Rdiv in G. rewrite Rmult_assoc, Rinv_l, Rmult_1_r in G by lra. exact G. }
  set (s := g * q) in *. apply Rabs_def2 in B. unfold good. fold s. split; [nra|lra].
Qed.
Lemma cut_total n : forall g k, (k < n)%nat -> good (g * / 3 ^ k) -> exists r, cut n p q prev g = Some r.
Proof.
  induction n as [|n IH]; intros g k K G; [lia|]. cbn [cut].
  destruct k as [|k].
  - cbn [pow] in G. replace (g * / 1) with g in G by field. destruct G as (A & B & C).
    destruct (Rlt_dec _ _); [|contradiction]. destruct (Rle_dec 0 _); [|lra]. destruct (Rle_dec _ 1); [|lra]. eauto.
  - assert (R : exists r, cut n p q prev (g / 3) = Some r) by (apply (IH _ k); [lia|now rewrite third_pow]).
    destruct (Rlt_dec _ _); [|exact R]. destruct (Rle_dec 0 _); [|exact R]. destruct (Rle_dec _ 1); [eauto|exact R].
Qed.
Lemma move_total tol : exists N, forall n, (N <= n)%nat -> exists r, move n n p q prev tol 1 = Some r.
Proof.
  destruct good_small as (e & E & G). destruct (third_small e E) as [k K].
  assert (T : forall n g, (k < n)%nat -> 0 < g <= 1 -> exists r, cut n p q prev g = Some r).
  { intros n g L Hg. apply (cut_total n g k L). apply G. assert (0 < / 3 ^ k) by (apply Rinv_0_lt_compat, pow_lt; lra). split; nra. }
  assert (M : forall f n g, (k < n)%nat -> 0 < g <= 1 -> g * / 3 ^ f < e -> exists r, move (S f) n p q prev tol g = Some r).
  { induction f as [|f IH]; intros n g L Hg B; rewrite move_S; destruct (T n g L Hg) as [[pn g'] C]; rewrite C;
      pose proof (cut_some n p q prev g pn g' Hg C) as (G' & EP & RP & _).
    - destruct (Rle_dec prev tol); [eauto|]. destruct (Rle_dec (q * q) tol); [eauto|].
      cbn [pow] in B. replace (g * / 1) with g in B by field. destruct (G g') as (_ & I1 & I2); [lra|].
      destruct (Req_EM_T pn 0); [lra|]. destruct (Req_EM_T pn 1); [lra|]. eauto.
    - destruct (Rle_dec prev tol); [eauto|]. destruct (Rle_dec (q * q) tol); [eauto|].
      assert (W : exists r, move (S f) n p q prev tol (g' / 3) = Some r).
      { apply IH; [exact L|lra|]. rewrite third_pow. assert (0 < / 3 ^ S f) by (apply Rinv_0_lt_compat, pow_lt; lra). nra. }
      destruct (Req_EM_T pn 0); [exact W|]. destruct (Req_EM_T pn 1); [exact W|]. eauto. }
  exists (S k). intros [|n] L; [lia|]. apply M; [lia|lra|].
  apply Rle_lt_trans with (/ 3 ^ k); [|exact K]. rewrite Rmult_1_l. apply Rinv_le_contravar; [apply pow_lt; lra|]. apply Rle_pow; [lra|lia].
Qed.
End Search.
Lemma move_some f n : forall p q prev tol g d pn g', 0 < g <= 1 -> move f n p q prev tol g = Some (d, pn, g') ->
  0 < g' <= g /\ pn = p - g' * q /\ 0 <= pn <= 1 /\ (pn - p) * (pn - p) < prev /\
  (d = true -> (pn - p) * (pn - p) <= tol) /\ (d = false -> 0 < pn < 1).
Proof.
  induction f as [|f IH]; intros p q prev tol g d pn g' G; cbn [move]; [discriminate|].
  destruct (cut n p q prev g) as [[pc gc]|] eqn:C; [|discriminate]. pose proof (cut_some n p q prev g pc gc G C) as (G' & EP & RP & LP).
  assert (W : move f n p q prev tol (gc / 3) = Some (d, pn, g') -> 0 < g' <= g /\ pn = p - g' * q /\ 0 <= pn <= 1 /\ (pn - p) * (pn - p) < prev /\
    (d = true -> (pn - p) * (pn - p) <= tol) /\ (d = false -> 0 < pn < 1)).
  { intro H. apply IH in H; [|lra]. destruct H as (A & B). split; [lra|exact B]. }
  destruct (Rle_dec prev tol).
  { intros [= <- <- <-]. split; [lra|]. split; [exact EP|]. split; [exact RP|]. split; [exact LP|]. split; [lra|discriminate]. }
  destruct (Rle_dec (q * q) tol) as [Q|].
  { intros [= <- <- <-]. split; [lra|]. split; [exact EP|]. split; [exact RP|]. split; [exact LP|]. split; [|discriminate].
    intros _. rewrite EP. replace (p - gc * q - p) with (- (gc * q)) by ring. replace (- (gc * q) * - (gc * q)) with (gc * gc * (q * q)) by ring.
    assert (0 <= q * q) by nra. assert (gc * gc <= 1) by nra. nra. }
  destruct (Req_EM_T pc 0); [exact W|]. destruct (Req_EM_T pc 1); [exact W|].
  intros [= <- <- <-]. split; [lra|]. split; [exact EP|]. split; [exact RP|]. split; [exact LP|]. split; [discriminate|lra].
Qed.

(** *** The Newton iteration *)
Section I.
Variable I : R -> R -> R -> R.
Lemma checked_in a b p : 0 < a -> 0 < b -> 0 < p < 1 -> checked_beta_reg I a b p = Ok (I a b p).
Proof.
  intros A B P. unfold checked_beta_reg. destruct (Rle_dec a 0); [lra|]. destruct (Rle_dec b 0); [lra|].
  destruct (Rle_dec 0 p); [|lra]. destruct (Rle_dec p 1); [reflexivity|lra].
Qed.
(** How a run ends: at an exact solution, or one damped Newton step of length at most the root of the tolerance away from
    a point of (0, 1). *)
Definition ends (a b x lnb tol y : R) : Prop :=
  (0 < y < 1 /\ I a b y = x) \/
  (0 <= y <= 1 /\ exists p g, 0 < p < 1 /\ 0 < g <= 1 /\ y = p - g * ((I a b p - x) * slope_inv a b lnb p) /\ (y - p) * (y - p) <= tol).
Lemma newton_ends a b x lnb tol n : 0 < a -> 0 < b -> forall f p qprev sq prev, 0 < p < 1 ->
  match newton I f n a b x lnb tol p qprev sq prev with Done y => ends a b x lnb tol y | Running => True | Panicked => False end.
Proof.
  intros A B. induction f as [|f IH]; intros p qprev sq prev P; [exact Logic.I|]. cbn [newton]. rewrite checked_in by assumption. cbv zeta.
  set (q := (I a b p - x) * slope_inv a b lnb p).
  match goal with |- context [move n n p q ?v tol 1] => set (pv := v) end.
  destruct (move n n p q pv tol 1) as [[[d pn] g]|] eqn:E; [|exact Logic.I].
  apply move_some in E; [|lra]. destruct E as (G & EP & RP & _ & D1 & D2). destruct d.
  - right. split; [exact RP|]. exists p, g. split; [exact P|]. split; [lra|]. split; [exact EP|now apply D1].
  - destruct (Req_EM_T pn p) as [Q|]; [|apply IH; now apply D2].
    left. split; [exact P|]. assert (Z : g * q = 0) by lra. apply Rmult_integral in Z. destruct Z as [Z|Z]; [lra|].
    unfold q in Z. apply Rmult_integral in Z. destruct Z as [Z|Z]; [lra|]. unfold slope_inv in Z. pose proof (exp_pos (lnb + (1 - a) * ln p + (1 - b) * ln (1 - p))). lra.
Qed.
(** No round waits for ever. *)
Lemma round_ends a b x lnb tol p qprev sq prev : 0 < a -> 0 < b -> 0 < p < 1 -> 0 < prev -> exists N, forall n, (N <= n)%nat ->
  (exists y, newton I 1 n a b x lnb tol p qprev sq prev = Done y) \/
  exists p' q' sq' prev', 0 < p' < 1 /\ 0 < prev' /\ forall f, newton I (S f) n a b x lnb tol p qprev sq prev = newton I f n a b x lnb tol p' q' sq' prev'.
Proof.
  intros A B P V. set (q := (I a b p - x) * slope_inv a b lnb p).
  set (pv := if Rle_dec (q * qprev) 0 then if Rlt_dec (/ 10 ^ 30) sq then sq else / 10 ^ 30 else prev).
  assert (T : 0 < / 10 ^ 30) by (apply Rinv_0_lt_compat, pow_lt; lra).
  assert (PV : 0 < pv). { unfold pv. destruct (Rle_dec _ 0); [|exact V]. destruct (Rlt_dec _ sq); lra. }
  destruct (move_total p q pv P PV tol) as [N H]. exists N. intros n Ln. destruct (H n Ln) as [[[d pn] g] E].
  pose proof (move_some n n p q pv tol 1 d pn g ltac:(lra) E) as (_ & _ & _ & _ & _ & D2).
  assert (S1 : forall f, newton I (S f) n a b x lnb tol p qprev sq prev =
     match Some (d, pn, g) with None => Running | Some (true, pn, _) => Done pn
     | Some (false, pn, g) => if Req_EM_T pn p then Done p else newton I f n a b x lnb tol pn q (g * q * (g * q)) pv end).
  { intro f. cbn [newton]. rewrite checked_in by assumption. cbv zeta. fold q. fold pv. rewrite E. reflexivity. }
  destruct d; [left; rewrite S1; eauto|]. destruct (Req_EM_T pn p); [left; rewrite S1; eauto|].
  right. exists pn, q, (g * q * (g * q)), pv. split; [now apply D2|]. split; [exact PV|]. exact S1.
Qed.

Lemma clamp_in p : 0 < clamp p < 1.
Proof.
  unfold clamp. split; [eapply Rlt_le_trans; [|apply Rmax_l]; lra|]. apply Rmax_lub_lt; [lra|].
  eapply Rle_lt_trans; [apply Rmin_l|lra].
Qed.
Lemma acu_small a x : 0 < a -> 0 < x <= 1 -> acu a x <= / 10 ^ 13.
Proof.
  intros A X. unfold acu. cbv zeta. set (v := 5 / a / a + 1 / Rpower x (1 / 5) + 13).
  assert (V : 13 <= v). { assert (0 < 5 / a / a) by (repeat apply Rdiv_lt_0_compat; lra). assert (0 < 1 / Rpower x (1 / 5)) by (apply Rdiv_lt_0_compat; [lra|apply exp_pos]). unfold v. lra. }
  assert (K : (13 <= Int_part v)%Z). { destruct (base_Int_part v) as [H1 H2]. apply Z.lt_succ_r. apply lt_IZR. rewrite succ_IZR. lra. }
  destruct (Z.ltb_spec (Int_part v) 30).
  - apply Rinv_le_contravar; [apply pow_lt; lra|]. apply Rle_pow; [lra|]. lia.
  - apply Rinv_le_contravar; [apply pow_lt; lra|]. apply Rle_pow; [lra|lia].
Qed.

(** What the inverse returns. *)
Lemma inv_edges f n a b : inv_beta_reg I f n a b 0 = Done 0 /\ inv_beta_reg I f n a b 1 = Done 1.
Proof.
  unfold inv_beta_reg. cbv zeta. split; [destruct (Req_EM_T 0 0); [reflexivity|lra]|].
  destruct (Req_EM_T 1 0); [lra|]. destruct (Req_EM_T 1 1); [reflexivity|lra].
Qed.
Lemma ln_beta_sym a b : ln_beta a b = ln_beta b a.
Proof. unfold ln_beta. rewrite (Rplus_comm a b). ring. Qed.
Lemma inv_flip f n a b x : x < 1 / 2 -> inv_beta_reg I f n a b (1 - x) = match inv_beta_reg I f n b a x with Done y => Done (1 - y) | r => r end.
Proof.
  intro X. unfold inv_beta_reg. cbv zeta. destruct (Req_EM_T (1 - x) 0); [lra|].
  destruct (Req_EM_T x 0) as [->|NX]. { destruct (Req_EM_T (1 - 0) 1); [|lra]. f_equal. ring. }
  destruct (Req_EM_T (1 - x) 1); [lra|]. destruct (Req_EM_T x 1); [lra|]. destruct (Rlt_dec (1 / 2) (1 - x)); [|lra]. destruct (Rlt_dec (1 / 2) x); [lra|].
  replace (1 - (1 - x)) with x by ring. rewrite (ln_beta_sym a b). reflexivity.
Qed.
Lemma inv_ends f n a b x : 0 < a -> 0 < b -> 0 < x <= 1 / 2 ->
  match inv_beta_reg I f n a b x with Done y => ends a b x (ln_beta a b) (/ 10 ^ 13) y | Running => True | Panicked => False end.
Proof.
  intros A B X. unfold inv_beta_reg. cbv zeta. destruct (Req_EM_T x 0); [lra|]. destruct (Req_EM_T x 1); [lra|]. destruct (Rlt_dec (1 / 2) x); [lra|].
  pose proof (newton_ends a b x (ln_beta a b) (acu a x) n A B f (clamp (guess a b x (ln_beta a b))) 0 1 1 (clamp_in _)) as H.
  destruct (newton _ _ _ _ _ _ _ _ _ _ _ _) as [y| |]; try exact H. destruct H as [H|(R1 & p & g & P & G & Y & T)]; [now left|].
  right. split; [exact R1|]. exists p, g. repeat split; try tauto; try lra. eapply Rle_trans; [exact T|apply acu_small; lra].
Qed.
Lemma inv_range f n a b x : 0 < a -> 0 < b -> 0 <= x <= 1 ->
  match inv_beta_reg I f n a b x with Done y => 0 <= y <= 1 | Running => True | Panicked => False end.
Proof.
  intros A B X. assert (H : forall a b x, 0 < a -> 0 < b -> 0 <= x <= 1 / 2 -> match inv_beta_reg I f n a b x with Done y => 0 <= y <= 1 | Running => True | Panicked => False end).
  { clear. intros a b x A B X. destruct (Req_EM_T x 0) as [->|]; [rewrite (proj1 (inv_edges f n a b)); lra|].
    pose proof (inv_ends f n a b x A B ltac:(lra)) as H. destruct (inv_beta_reg I f n a b x); try exact H. destruct H as [H|H]; [lra|tauto]. }
  destruct (Rle_dec x (1 / 2)); [apply H; lra|]. replace x with (1 - (1 - x)) by ring. rewrite inv_flip by lra.
  specialize (H b a (1 - x) B A ltac:(lra)). destruct (inv_beta_reg I f n b a (1 - x)); try exact H. lra.
Qed.

(** *** Student's quantile *)
Lemma ppf_refused f n x df : x < 0 \/ 1 < x -> student_t_ppf I f n x df = Panicked.
Proof. intro H. unfold student_t_ppf. destruct (Rlt_dec x 0); [reflexivity|]. destruct (Rlt_dec 1 x); [reflexivity|lra]. Qed.
Lemma ppf_median f n df : 0 < df -> student_t_ppf I f n (1 / 2) df = Done (Fin 0).
Proof.
  intro D. unfold student_t_ppf. destruct (Rlt_dec (1 / 2) 0); [lra|]. destruct (Rlt_dec 1 (1 / 2)); [lra|]. destruct (Rle_dec (1 / 2) (1 / 2)); [|lra].
  replace (2 * (1 - 1 / 2)) with 1 by field. rewrite (proj2 (inv_edges f n _ _)). destruct (Req_EM_T 1 0); [lra|]. cbv zeta.
  replace (df * (1 - 1) / 1) with 0 by field. now rewrite sqrt_0.
Qed.
Lemma ppf_ends f n df : student_t_ppf I f n 0 df = Done NInf /\ student_t_ppf I f n 1 df = Done PInf.
Proof.
  unfold student_t_ppf. destruct (Rlt_dec 0 0); [lra|]. destruct (Rlt_dec 1 0); [lra|]. destruct (Rlt_dec 1 1); [lra|].
  destruct (Rle_dec (1 / 2) 0); [lra|]. destruct (Rle_dec (1 / 2) 1); [|lra].
  replace (2 * 0) with 0 by ring. replace (2 * (1 - 1)) with 0 by ring. rewrite !(proj1 (inv_edges f n _ _)). destruct (Req_EM_T 0 0); [|lra]. split; reflexivity.
Qed.
Definition opposite (r : run xnum) : run xnum :=
  match r with Done (Fin t) => Done (Fin (- t)) | Done PInf => Done NInf | Done NInf => Done PInf | Done NaN => Done NaN | Running => Running | Panicked => Panicked end.
Lemma ppf_odd f n x df : x <> 1 / 2 -> student_t_ppf I f n (1 - x) df = opposite (student_t_ppf I f n x df).
Proof.
  intro X. unfold student_t_ppf, opposite.
  destruct (Rlt_dec (1 - x) 0), (Rlt_dec 1 (1 - x)), (Rlt_dec x 0), (Rlt_dec 1 x); try lra; try reflexivity. cbv zeta.
  destruct (Rle_dec (1 / 2) (1 - x)), (Rle_dec (1 / 2) x); try lra.
  - replace (1 - (1 - x)) with x by ring. destruct (inv_beta_reg I f n _ _ _) as [y| |]; try reflexivity. destruct (Req_EM_T y 0); [reflexivity|]. cbn. now rewrite Ropp_involutive.
  - destruct (inv_beta_reg I f n _ _ _) as [y| |]; try reflexivity. destruct (Req_EM_T y 0); reflexivity.
Qed.
Lemma ppf_total f n x df : 0 < df -> 0 <= x <= 1 -> student_t_ppf I f n x df <> Panicked.
Proof.
  intros D X. unfold student_t_ppf. destruct (Rlt_dec x 0); [lra|]. destruct (Rlt_dec 1 x); [lra|]. cbv zeta.
  match goal with |- context [inv_beta_reg I f n ?a ?b ?v] => pose proof (inv_range f n a b v ltac:(lra) ltac:(lra)) as H; destruct (inv_beta_reg I f n a b v) end; try discriminate.
  - destruct (Req_EM_T v 0); discriminate.
  - exfalso. apply H. destruct (Rle_dec (1 / 2) x); lra.
Qed.
(** The quantile is where the p-value of the t test is half the incomplete beta function at the inverse. *)
Lemma ppf_sf f n x df t : 0 < df -> 1 / 2 <= x < 1 -> student_t_ppf I f n x df = Done (Fin t) ->
  0 <= t /\ exists y, inv_beta_reg I f n (df / 2) (1 / 2) (2 * (1 - x)) = Done y /\ 0 < y <= 1 /\ df / (df + t * t) = y /\
    (0 < t -> student_t_sf I t df = Ok (1 / 2 * I (df / 2) (1 / 2) y)).
Proof.
  intros D X. unfold student_t_ppf. destruct (Rlt_dec x 0); [lra|]. destruct (Rlt_dec 1 x); [lra|]. cbv zeta. destruct (Rle_dec (1 / 2) x); [|lra].
  replace (1 / 2 * df) with (df / 2) by field.
  pose proof (inv_range f n (df / 2) (1 / 2) (2 * (1 - x)) ltac:(lra) ltac:(lra) ltac:(lra)) as H.
  destruct (inv_beta_reg I f n _ _ _) as [y| |]; try discriminate. destruct (Req_EM_T y 0); [discriminate|]. intros [= <-].
  assert (Q : 0 <= df * (1 - y) / y) by (apply Rmult_le_pos; [nra|left; apply Rinv_0_lt_compat; lra]).
  split; [apply sqrt_pos|]. exists y. split; [reflexivity|]. split; [lra|].
  assert (Y : df / (df + sqrt (df * (1 - y) / y) * sqrt (df * (1 - y) / y)) = y).
  { rewrite sqrt_sqrt by exact Q. field. split; [lra|]. replace (df * y + df * (1 - y)) with df by ring. lra. }
  split; [exact Y|]. intro T. unfold student_t_sf. rewrite Y. unfold checked_beta_reg. destruct (Rle_dec (df / 2) 0); [lra|]. destruct (Rle_dec (1 / 2) 0); [lra|].
  destruct (Rle_dec 0 y); [|lra]. destruct (Rle_dec y 1); [|lra]. destruct (Rle_dec _ 0); [lra|]. reflexivity.
Qed.
End I.
(** A run: a constant [I] is solved by the first guess. *)
Lemma first_guess a b : 0 < a -> 0 < b -> inv_beta_reg (fun _ _ _ => 1 / 4) 1 1 a b (1 / 4) = Done (clamp (guess a b (1 / 4) (ln_beta a b))).
Proof.
  intros A B. unfold inv_beta_reg. cbv zeta. destruct (Req_EM_T (1 / 4) 0); [lra|]. destruct (Req_EM_T (1 / 4) 1); [lra|]. destruct (Rlt_dec (1 / 2) (1 / 4)); [lra|].
  set (p := clamp _). pose proof (clamp_in (guess a b (1 / 4) (ln_beta a b))) as P. fold p in P. clearbody p. cbn [newton]. rewrite checked_in by assumption. cbv zeta.
  replace ((1 / 4 - 1 / 4) * slope_inv a b (ln_beta a b) p) with 0 by ring. rewrite Rmult_0_l. destruct (Rle_dec 0 0); [|lra].
  assert (T : / 10 ^ 30 < 1) by (rewrite <- Rinv_1; apply Rinv_lt_contravar; [rewrite Rmult_1_l; apply pow_lt; lra|apply Rlt_pow_R1; [lra|lia]]).
  destruct (Rlt_dec (/ 10 ^ 30) 1); [|contradiction]. cbn [move cut]. rewrite !Rmult_0_r. destruct (Rlt_dec 0 1); [|lra].
  destruct (Rle_dec 0 (p - 0)); [|lra]. destruct (Rle_dec (p - 0) 1); [|lra]. rewrite Rminus_0_r.
  assert (A0 : 0 < acu a (1 / 4)). { unfold acu. cbv zeta. destruct (_ <? 30)%Z; apply Rinv_0_lt_compat, pow_lt; lra. }
  destruct (Rle_dec 1 _); [reflexivity|]. destruct (Rle_dec 0 _); [reflexivity|lra].
Qed.
Lemma run_case : inv_beta_reg (fun _ _ _ => 1 / 4) 1 1 2 3 (1 / 4) = Done (clamp (guess 2 3 (1 / 4) (ln_beta 2 3))).
Proof. apply first_guess; lra. Qed.

(* C123: Student's t and F tails, and the code that computes them. *)
From Coq Require Import Reals Lra Lia Arith.
From Coquelicot Require Import Coquelicot.
From Verif Require Import GamModel GamSpec GamInt GamLan5 GamInc TtestSpec TtestModel BetaSpec BetaInt BetaFrac BetaErr BetaModel BetaLentz BetaStop BetaReg BetaTail.
Local Open Scope R_scope.

Lemma t_defined nu x : 0 < nu -> exists p, t_upper_tail nu x p /\ 0 < p < 1 /\ forall q, t_upper_tail nu x q -> q = p.
Proof.
  intros Hn.
  assert (B : forall y, 0 < y -> 0 < Inc (nu / 2) (1 / 2) (nu / (nu + y * y)) / Bet (nu / 2) (1 / 2) < 1).
  { intros y Hy. pose proof (beta_pos (nu / 2) (1 / 2) ltac:(lra) ltac:(lra)) as PB. assert (0 < y * y) by (apply Rmult_lt_0_compat; auto).
    assert (Hx : 0 < nu / (nu + y * y) < 1).
    { split; [apply Rdiv_lt_0_compat; lra|]. apply Rmult_lt_reg_r with (nu + y * y); [lra|]. unfold Rdiv. rewrite Rmult_assoc, Rinv_l by lra. lra. }
    destruct (Inc_pos (nu / 2) (1 / 2) _ ltac:(lra) ltac:(lra) Hx) as [I1 I2].
    split; [apply Rdiv_lt_0_compat; auto|]. apply Rmult_lt_reg_r with (Bet (nu / 2) (1 / 2)); auto. unfold Rdiv at 1. rewrite Rmult_assoc, Rinv_l by lra. lra. }
  destruct (Rtotal_order x 0) as [H|[->|H]].
  - pose proof (t_tail_neg nu Hn (- x) ltac:(lra)) as T. rewrite Ropp_involutive in T. pose proof (B (- x) ltac:(lra)).
    eexists. split; [exact T|]. split; [lra|]. intros q Hq. apply (t_tail_uniq _ _ _ _ Hq T).
  - pose proof (t_tail_zero nu Hn) as T. eexists. split; [exact T|]. split; [lra|]. intros q Hq. apply (t_tail_uniq _ _ _ _ Hq T).
  - pose proof (t_tail_pos nu Hn x H) as T. pose proof (B x H).
    eexists. split; [exact T|]. split; [lra|]. intros q Hq. apply (t_tail_uniq _ _ _ _ Hq T).
Qed.
Lemma t_reflect nu x p q : 0 < nu -> t_upper_tail nu x p -> t_upper_tail nu (- x) q -> p + q = 1.
Proof.
  intros Hn. assert (G : forall x p q, 0 < x -> t_upper_tail nu x p -> t_upper_tail nu (- x) q -> p + q = 1).
  { intros y u v Hy U V. rewrite (t_tail_uniq _ _ _ _ U (t_tail_pos nu Hn y Hy)), (t_tail_uniq _ _ _ _ V (t_tail_neg nu Hn y Hy)). ring. }
  intros P Q. destruct (Rtotal_order x 0) as [H|[->|H]].
  - rewrite Rplus_comm. apply (G (- x)); auto; [lra|]. rewrite Ropp_involutive. auto.
  - rewrite Ropp_0 in Q. rewrite (t_tail_uniq _ _ _ _ P (t_tail_zero nu Hn)), (t_tail_uniq _ _ _ _ Q (t_tail_zero nu Hn)). lra.
  - apply (G x); auto.
Qed.
Lemma f_defined d1 d2 x : 0 < d1 -> 0 < d2 -> 0 < x -> exists p, f_upper_tail d1 d2 x p /\ 0 < p < 1 /\ forall q, f_upper_tail d1 d2 x q -> q = p.
Proof.
  intros H1 H2 Hx. pose proof (f_tail d1 d2 H1 H2 x Hx) as T. eexists. split; [exact T|]. split; [|intros q Hq; apply (f_tail_uniq _ _ _ _ _ Hq T)].
  pose proof (beta_pos (d2 / 2) (d1 / 2) ltac:(lra) ltac:(lra)) as PB. assert (0 < d1 * x) by (apply Rmult_lt_0_compat; auto).
  assert (Hy : 0 < d2 / (d1 * x + d2) < 1).
  { split; [apply Rdiv_lt_0_compat; lra|]. apply Rmult_lt_reg_r with (d1 * x + d2); [lra|]. unfold Rdiv. rewrite Rmult_assoc, Rinv_l by lra. lra. }
  destruct (Inc_pos (d2 / 2) (d1 / 2) _ ltac:(lra) ltac:(lra) Hy) as [I1 I2].
  split; [apply Rdiv_lt_0_compat; auto|]. apply Rmult_lt_reg_r with (Bet (d2 / 2) (d1 / 2)); auto. unfold Rdiv at 1. rewrite Rmult_assoc, Rinv_l by lra. lra.
Qed.
Lemma euler_thm a b B Ga Gb Gab : 0 < a -> 0 < b -> is_Beta a b B -> is_Gamma a Ga -> is_Gamma b Gb -> is_Gamma (a + b) Gab -> B = Ga * Gb / Gab.
Proof.
  intros Ha Hb HB H1 H2 H3. rewrite <- (beta_uniq a b B HB), <- (gamma_uniq a Ga H1), <- (gamma_uniq b Gb H2), <- (gamma_uniq (a + b) Gab H3). apply euler; auto.
Qed.

(** ** Student's t *)
Lemma h_range df t : 0 < df -> 0 < df / (df + t * t) <= 1 /\ (t <> 0 -> df / (df + t * t) < 1).
Proof.
  intros Hd. pose proof (Rle_0_sqr t) as S. unfold Rsqr in S. split; [split; [apply Rdiv_lt_0_compat; lra|]|].
  - apply Rmult_le_reg_r with (df + t * t); [lra|]. unfold Rdiv. rewrite Rmult_assoc, Rinv_l by lra. lra.
  - intros Hn. assert (0 < t * t) by (apply Rsqr_pos_lt; auto). apply Rmult_lt_reg_r with (df + t * t); [lra|]. unfold Rdiv. rewrite Rmult_assoc, Rinv_l by lra. lra.
Qed.
Lemma checked_ok I a b x : 0 < a -> 0 < b -> 0 <= x <= 1 -> checked_beta_reg I a b x = Ok (I a b x).
Proof.
  intros Ha Hb Hx. unfold checked_beta_reg. destruct (Rle_dec a 0); [lra|]. destruct (Rle_dec b 0); [lra|].
  destruct (Rle_dec 0 x); [|lra]. destruct (Rle_dec x 1); [reflexivity|lra].
Qed.
Lemma sf_pos t df : 0 < df -> 0 < t -> student_t_sf beta_reg t df = Ok (1 / 2 * beta_reg (df / 2) (1 / 2) (df / (df + t * t))).
Proof.
  intros Hd Ht. destruct (h_range df t Hd) as [H _]. unfold student_t_sf. rewrite checked_ok by lra. destruct (Rle_dec t 0); [lra|reflexivity].
Qed.
Lemma reg_one a b : 0 < a -> 0 < b -> beta_reg a b 1 = 1.
Proof.
  intros Ha Hb. unfold beta_reg. destruct (top_1 a b Ha Hb) as (_ & T & _). unfold top in T.
  destruct (Rle_dec ((a + 1) / (a + b + 2)) 1); [|lra]. unfold beta_bt. destruct (Req_EM_T 1 0); [lra|]. destruct (Req_EM_T 1 1); [|lra]. unfold Rdiv. rewrite !Rmult_0_l. apply Rminus_0_r.
Qed.
Lemma sf_zero df : 0 < df -> student_t_sf beta_reg 0 df = Ok (1 / 2).
Proof.
  intros Hd. unfold student_t_sf. replace (df / (df + 0 * 0)) with 1 by (field; lra). rewrite checked_ok, reg_one by lra. destruct (Rle_dec 0 0); [f_equal; field|lra].
Qed.
Lemma sf_neg t df y : 0 < df -> 0 < t -> student_t_sf beta_reg t df = Ok y -> student_t_sf beta_reg (- t) df = Ok (1 - y).
Proof.
  intros Hd Ht. rewrite sf_pos by auto. intros E. injection E as <-. destruct (h_range df t Hd) as [H _]. unfold student_t_sf.
  replace (- t * - t) with (t * t) by ring. rewrite checked_ok by lra. destruct (Rle_dec (- t) 0); [reflexivity|lra].
Qed.
Lemma sf_domain t df : (exists y, student_t_sf beta_reg t df = Ok y) <-> 0 < df.
Proof.
  split.
  - intros [y H]. destruct (Rlt_dec 0 df) as [L|L]; auto. exfalso. unfold student_t_sf, checked_beta_reg in H.
    destruct (Rle_dec (df / 2) 0) as [_|N]; [discriminate|]. apply N. lra.
  - intros Hd. destruct (Rtotal_order t 0) as [H|[->|H]].
    + pose proof (sf_pos (- t) df Hd ltac:(lra)) as E. apply sf_neg in E; [|lra|lra]. rewrite Ropp_involutive in E. eauto.
    + rewrite sf_zero; eauto.
    + rewrite sf_pos; eauto.
Qed.
Lemma big n : (n <= 200)%nat -> 10 ^ n <= huge.
Proof. intros H. unfold huge. apply Rle_pow; [lra|auto]. Qed.
Lemma stud_settled a x : 1 / 2 <= a -> a <= 10 ^ 40 -> 0 < x < 1 -> settled a (1 / 2) x = true.
Proof.
  intros Ha Hh Hx. unfold settled. fold (top a (1 / 2)). destruct (top_1 a (1 / 2) ltac:(lra) ltac:(lra)) as (_ & _ & E1).
  assert (G : a + 1 / 2 + 2 <= huge).
  { pose proof (big 41 ltac:(lia)). assert (10 ^ 40 + 10 <= 10 ^ 41) by (rewrite !pow_IZR, <- plus_IZR; apply IZR_le, Z.leb_le; reflexivity). lra. }
  destruct (Rle_dec (top a (1 / 2)) x) as [T|T].
  - apply settle_symm; [lra| |auto]. unfold top. rewrite (Rplus_comm (1 / 2) a). lra.
  - apply settle_direct; auto; lra.
Qed.
Lemma stud_far df t p : 1 <= df -> df <= 10 ^ 40 -> 0 < t -> df / (df + t * t) < top (df / 2) (1 / 2) -> t_upper_tail df t p ->
  exists y, student_t_sf beta_reg t df = Ok y /\ 0 < y /\ Rabs (y - p) <= 4e-16 * (df + 6) * y.
Proof.
  intros Hd Hh Ht Hx T. pose proof (sf_pos t df ltac:(lra) Ht) as E. rewrite (t_tail_uniq _ _ _ _ T (t_tail_pos df ltac:(lra) t Ht)).
  destruct (h_range df t ltac:(lra)) as [R1 R2]. specialize (R2 ltac:(lra)).
  set (x := df / (df + t * t)) in *. set (a := df / 2) in *.
  assert (G : a + 1 / 2 + 2 <= huge).
  { pose proof (big 41 ltac:(lia)). assert (10 ^ 40 + 10 <= 10 ^ 41) by (rewrite !pow_IZR, <- plus_IZR; apply IZR_le, Z.leb_le; reflexivity). unfold a. lra. }
  destruct (reg_close a (1 / 2) x ltac:(unfold a; lra) ltac:(lra) ltac:(lra) G) as [C _]; [apply stud_settled; unfold a; lra|].
  destruct (C Hx) as [P1 C1]. clear C. set (r := beta_reg a (1 / 2) x) in *. clearbody r. set (i := Inc a (1 / 2) x / Bet a (1 / 2)) in *. clearbody i.
  exists (1 / 2 * r). split; auto. split; [lra|].
  assert (S : slack a (1 / 2) <= 4e-16 * (df + 6)). { unfold slack, kap, a. lra. }
  replace (1 / 2 * r - i / 2) with ((r - i) * (1 / 2)) by field. rewrite Rabs_mult, (Rabs_pos_eq (1 / 2)) by lra.
  assert (slack a (1 / 2) * r <= 4e-16 * (df + 6) * r) by (apply Rmult_le_compat_r; lra). lra.
Qed.
Lemma stud_near df t p : 1 <= df -> df <= 10 ^ 40 -> 0 < t -> top (df / 2) (1 / 2) <= df / (df + t * t) -> t_upper_tail df t p ->
  exists y, student_t_sf beta_reg t df = Ok y /\ y < 1 / 2 /\ Rabs (y - p) <= 2e-15.
Proof.
  intros Hd Hh Ht Hx T. pose proof (sf_pos t df ltac:(lra) Ht) as E. rewrite (t_tail_uniq _ _ _ _ T (t_tail_pos df ltac:(lra) t Ht)).
  destruct (h_range df t ltac:(lra)) as [R1 R2]. specialize (R2 ltac:(lra)).
  set (x := df / (df + t * t)) in *. set (a := df / 2) in *.
  assert (G : a + 1 / 2 + 2 <= huge).
  { pose proof (big 41 ltac:(lia)). assert (10 ^ 40 + 10 <= 10 ^ 41) by (rewrite !pow_IZR, <- plus_IZR; apply IZR_le, Z.leb_le; reflexivity). unfold a. lra. }
  destruct (reg_close a (1 / 2) x ltac:(unfold a; lra) ltac:(lra) ltac:(lra) G) as [_ C]; [apply stud_settled; unfold a; lra|].
  destruct (C Hx) as [P1 C1]. clear C. set (r := beta_reg a (1 / 2) x) in *. clearbody r.
  pose proof (beta_pos a (1 / 2) ltac:(unfold a; lra) ltac:(lra)) as PB.
  assert (I0 : 0 < Inc a (1 / 2) x / Bet a (1 / 2)) by (apply Rdiv_lt_0_compat; auto; apply Inc_pos; unfold a; lra).
  set (i := Inc a (1 / 2) x / Bet a (1 / 2)) in *. clearbody i.
  exists (1 / 2 * r). split; auto. split; [lra|].
  assert (S : slack (1 / 2) a <= 3.2e-15).
  { unfold slack, kap. assert ((1 / 2 + a + 2) / (a + 1) <= 5 / 2).
    { apply Rmult_le_reg_r with (a + 1); [unfold a; lra|]. unfold Rdiv at 1. rewrite Rmult_assoc, Rinv_l by (unfold a; lra). unfold a. lra. } lra. }
  assert (slack (1 / 2) a * (1 - r) <= 3.2e-15 * (1 - r)) by (apply Rmult_le_compat_r; lra).
  replace (1 / 2 * r - i / 2) with ((r - i) * (1 / 2)) by field. rewrite Rabs_mult, (Rabs_pos_eq (1 / 2)) by lra.
  apply Rabs_le_between in C1. assert (Rabs (r - i) <= 3.3e-15) by (apply Rabs_le; lra). lra.
Qed.
Lemma far_arm df t : 0 < df -> 3 <= t * t -> df / (df + t * t) < top (df / 2) (1 / 2).
Proof.
  intros Hd H. unfold top. apply Rmult_lt_reg_r with ((df + t * t) * (df / 2 + 1 / 2 + 2)); [apply Rmult_lt_0_compat; lra|].
  replace (df / (df + t * t) * ((df + t * t) * (df / 2 + 1 / 2 + 2))) with (df * (df / 2 + 1 / 2 + 2)) by (field; lra).
  replace ((df / 2 + 1) / (df / 2 + 1 / 2 + 2) * ((df + t * t) * (df / 2 + 1 / 2 + 2))) with ((df / 2 + 1) * (df + t * t)) by (field; lra).
  assert ((df / 2 + 1) * 3 <= (df / 2 + 1) * (t * t)) by (apply Rmult_le_compat_l; lra). lra.
Qed.
Theorem student_far df t p : 1 <= df <= 10 ^ 40 -> 0 < t -> 3 <= t * t -> t_upper_tail df t p ->
  exists y, student_t_sf beta_reg t df = Ok y /\ 0 < y /\ Rabs (y - p) <= 4e-16 * (df + 6) * y.
Proof. intros Hd Ht H T. apply stud_far; auto; try lra. apply far_arm; lra. Qed.
Theorem student_close df t p : 1 <= df <= 10 ^ 12 -> t_upper_tail df t p ->
  exists y, student_t_sf beta_reg t df = Ok y /\ Rabs (y - p) <= 4e-16 * (df + 6).
Proof.
  intros Hd.
  assert (B : 10 ^ 12 <= 10 ^ 40) by (apply Rle_pow; [lra|lia]).
  assert (G : forall t p, 0 < t -> t_upper_tail df t p -> exists y, student_t_sf beta_reg t df = Ok y /\ Rabs (y - p) <= 4e-16 * (df + 6)).
  { intros u q Hu T. destruct (Rlt_dec (df / (df + u * u)) (top (df / 2) (1 / 2))) as [X|X].
    - destruct (stud_far df u q ltac:(lra) ltac:(lra) Hu X T) as (y & E & Py & C). exists y. split; auto.
      destruct (t_defined df u ltac:(lra)) as (q' & _ & Q1 & U). rewrite <- (U q T) in Q1.
      assert (y <= 1). { apply Rabs_le_between in C. assert (4e-16 * (df + 6) * y <= 1 / 1000 * y) by (apply Rmult_le_compat_r; [lra|]; cbn [pow] in Hd; lra).
        assert (q <= 1 / 2). { rewrite (t_tail_uniq _ _ _ _ T (t_tail_pos df ltac:(lra) u Hu)).
          pose proof (beta_pos (df / 2) (1 / 2) ltac:(lra) ltac:(lra)) as PB. destruct (h_range df u ltac:(lra)) as [R1 R2]. specialize (R2 ltac:(lra)).
          destruct (Inc_pos (df / 2) (1 / 2) (df / (df + u * u)) ltac:(lra) ltac:(lra) ltac:(lra)) as [_ I2].
          assert (Inc (df / 2) (1 / 2) (df / (df + u * u)) / Bet (df / 2) (1 / 2) <= 1); [|lra].
          apply Rmult_le_reg_r with (Bet (df / 2) (1 / 2)); auto. unfold Rdiv at 1. rewrite Rmult_assoc, Rinv_l by lra. lra. }
        lra. }
      apply Rle_trans with (1 := C). rewrite <- (Rmult_1_r (4e-16 * (df + 6))) at 2. apply Rmult_le_compat_l; lra.
    - destruct (stud_near df u q ltac:(lra) ltac:(lra) Hu ltac:(lra) T) as (y & E & _ & C). exists y. split; auto. lra. }
  intros T. destruct (Rtotal_order t 0) as [H|[->|H]].
  - destruct (t_defined df (- t) ltac:(lra)) as (q & Q & _). destruct (G (- t) q ltac:(lra) Q) as (y & E & C).
    apply sf_neg in E; [|lra|lra]. rewrite Ropp_involutive in E. exists (1 - y). split; auto.
    pose proof (t_reflect df t p q ltac:(lra) T Q) as R. replace (1 - y - p) with (- (y - q)) by lra. rewrite Rabs_Ropp. exact C.
  - exists (1 / 2). split; [apply sf_zero; lra|]. rewrite (t_tail_uniq _ _ _ _ T (t_tail_zero df ltac:(lra))).
    replace (1 / 2 - 1 / 2) with 0 by ring. rewrite Rabs_R0. lra.
  - apply (G t p); auto.
Qed.
Theorem p_close df t alt p : 1 <= df <= 10 ^ 12 -> t_p_value df t alt p ->
  exists y, p_value beta_reg t df alt = Ok y /\ Rabs (y - p) <= 8e-16 * (df + 6).
Proof.
  intros Hd. destruct alt; cbn [t_p_value p_value].
  all: try (intros (q & T & ->)); try intros T.
  all: try (destruct (student_close df (Rabs t) q Hd T) as (y & E & C); rewrite E; exists (2 * y); split; auto;
    replace (2 * y - 2 * q) with (2 * (y - q)) by ring; rewrite Rabs_mult, (Rabs_pos_eq 2) by lra; lra).
  all: try (destruct (student_close df t p Hd T) as (y & E & C); exists y; split; auto; lra).
  destruct (t_defined df (- t) ltac:(lra)) as (q' & Q & _). destruct (student_close df (- t) q' Hd Q) as (y & E & C). exists y. split; auto.
  pose proof (t_reflect df t q q' ltac:(lra) T Q) as R. replace (y - (1 - q)) with (y - q') by lra. lra.
Qed.

(** ** F *)
Lemma f_arg d1 d2 x : 0 < d1 -> 0 < d2 -> 0 <= x -> 1 - d1 * x / (d1 * x + d2) = d2 / (d1 * x + d2).
Proof. intros H1 H2 Hx. assert (0 <= d1 * x) by (apply Rmult_le_pos; lra). field. lra. Qed.
Lemma f_range d1 d2 x : 0 < d1 -> 0 < d2 -> 0 < x -> 0 < d2 / (d1 * x + d2) < 1.
Proof.
  intros H1 H2 Hx. assert (0 < d1 * x) by (apply Rmult_lt_0_compat; lra). split; [apply Rdiv_lt_0_compat; lra|].
  apply Rmult_lt_reg_r with (d1 * x + d2); [lra|]. unfold Rdiv. rewrite Rmult_assoc, Rinv_l by lra. lra.
Qed.
Lemma sf_f x d1 d2 : 0 < d1 -> 0 < d2 -> 0 < x -> fisher_snedecor_sf x d1 d2 = Ok (beta_reg (d2 / 2) (d1 / 2) (d2 / (d1 * x + d2))).
Proof.
  intros H1 H2 Hx. unfold fisher_snedecor_sf. destruct (Rlt_dec x 0); [lra|]. cbv zeta. rewrite f_arg by lra.
  pose proof (f_range d1 d2 x H1 H2 Hx). apply checked_ok; lra.
Qed.
Lemma f_zero d1 d2 : 0 < d1 -> 0 < d2 -> fisher_snedecor_sf 0 d1 d2 = Ok 1.
Proof.
  intros H1 H2. unfold fisher_snedecor_sf. destruct (Rlt_dec 0 0); [lra|]. cbv zeta. rewrite f_arg by lra.
  replace (d2 / (d1 * 0 + d2)) with 1 by (field; lra). rewrite checked_ok by lra. rewrite reg_one by lra. reflexivity.
Qed.
Lemma f_err x d1 d2 : x < 0 \/ d1 <= 0 \/ d2 <= 0 -> fisher_snedecor_sf x d1 d2 = Err.
Proof.
  intros H. unfold fisher_snedecor_sf. destruct (Rlt_dec x 0); [reflexivity|]. cbv zeta. unfold checked_beta_reg.
  destruct (Rle_dec (d2 / 2) 0); [reflexivity|]. destruct (Rle_dec (d1 / 2) 0); [reflexivity|]. lra.
Qed.
Theorem square_law t df : 0 < df -> p_value beta_reg t df TwoSided = fisher_snedecor_sf (t * t) 1 df.
Proof.
  intros Hd. cbn [p_value]. destruct (Req_dec t 0) as [->|Hn].
  - rewrite Rabs_R0, sf_zero, Rmult_0_l, f_zero by lra. f_equal. field.
  - rewrite sf_pos by (auto; apply Rabs_pos_lt; auto). assert (0 < t * t) by (apply Rsqr_pos_lt; auto).
    rewrite sf_f by lra. rewrite <- Rabs_mult, Rabs_pos_eq by lra. rewrite Rmult_1_l, (Rplus_comm df). generalize (beta_reg (df / 2) (1 / 2) (df / (t * t + df))). intros r. f_equal. field.
Qed.
Lemma kap_pos a b : 0 < a -> 0 < b -> 0 < kap a b. Proof. intros. unfold kap. apply Rdiv_lt_0_compat; lra. Qed.
Theorem f_close d1 d2 x p : 1 <= d1 -> 1 <= d2 -> d1 + d2 <= 10 ^ 100 -> 0 < x -> ~ exhausted x d1 d2 -> f_upper_tail d1 d2 x p ->
  exists y, fisher_snedecor_sf x d1 d2 = Ok y /\
    (d2 * (d1 + 2) < x * d1 * (d2 + 2) -> 0 < y /\ Rabs (y - p) <= 1.2e-15 * ((d1 + d2 + 4) / (d1 + 2)) * y + 4e-16 * y) /\
    (x * d1 * (d2 + 2) <= d2 * (d1 + 2) -> y < 1 /\ Rabs (y - p) <= 1.2e-15 * ((d1 + d2 + 4) / (d2 + 2)) * (1 - y) + 4e-16 * (1 - y)).
Proof.
  intros H1 H2 Hh Hx Hs T. rewrite (f_tail_uniq _ _ _ _ _ T (f_tail d1 d2 ltac:(lra) ltac:(lra) x Hx)).
  unfold exhausted in Hs. apply Bool.not_false_is_true in Hs. pose proof (sf_f x d1 d2 ltac:(lra) ltac:(lra) Hx) as E.
  pose proof (f_range d1 d2 x ltac:(lra) ltac:(lra) Hx) as Rg.
  assert (G : d2 / 2 + d1 / 2 + 2 <= huge).
  { pose proof (big 101 ltac:(lia)). assert (10 ^ 100 + 10 <= 10 ^ 101) by (rewrite !pow_IZR, <- plus_IZR; apply IZR_le, Z.leb_le; reflexivity). lra. }
  destruct (reg_close (d2 / 2) (d1 / 2) _ ltac:(lra) ltac:(lra) Rg G Hs) as [C1 C2].
  eexists. split; [exact E|]. clear E Hs.
  assert (P0 : 0 < d1 * x) by (apply Rmult_lt_0_compat; lra).
  set (z := d2 / (d1 * x + d2)) in *.
  assert (Z1 : z * (d1 * x + d2) = d2) by (unfold z; field; lra).
  assert (T1 : top (d2 / 2) (d1 / 2) * (d1 + d2 + 4) = d2 + 2) by (unfold top; field; lra).
  set (r := beta_reg (d2 / 2) (d1 / 2) z) in *. set (i := Inc (d2 / 2) (d1 / 2) z / Bet (d2 / 2) (d1 / 2)) in *. clearbody r i z.
  set (tp := top (d2 / 2) (d1 / 2)) in *. clearbody tp.
  assert (K1 : kap (d2 / 2) (d1 / 2) = (d1 + d2 + 4) / (d1 + 2)) by (unfold kap; field; lra).
  assert (K2 : kap (d1 / 2) (d2 / 2) = (d1 + d2 + 4) / (d2 + 2)) by (unfold kap; field; lra).
  unfold slack in *. rewrite K1 in C1. rewrite K2 in C2. clear K1 K2.
  assert (Q1 : 0 < (d1 + d2 + 4) / (d1 + 2)) by (apply Rdiv_lt_0_compat; lra). assert (Q2 : 0 < (d1 + d2 + 4) / (d2 + 2)) by (apply Rdiv_lt_0_compat; lra).
  set (k1 := (d1 + d2 + 4) / (d1 + 2)) in *. set (k2 := (d1 + d2 + 4) / (d2 + 2)) in *. clearbody k1 k2.
  split; intros A.
  - assert (z < tp).
    { apply Rmult_lt_reg_r with ((d1 * x + d2) * (d1 + d2 + 4)); [apply Rmult_lt_0_compat; lra|].
      replace (z * ((d1 * x + d2) * (d1 + d2 + 4))) with (d2 * (d1 + d2 + 4)) by (rewrite <- Z1 at 1; ring).
      replace (tp * ((d1 * x + d2) * (d1 + d2 + 4))) with ((d2 + 2) * (d1 * x + d2)) by (rewrite <- T1; ring). lra. }
    destruct (C1 H) as [P1 C]. split; auto. assert (0 < k1 * r) by (apply Rmult_lt_0_compat; auto). lra.
  - assert (tp <= z).
    { apply Rmult_le_reg_r with ((d1 * x + d2) * (d1 + d2 + 4)); [apply Rmult_lt_0_compat; lra|].
      replace (z * ((d1 * x + d2) * (d1 + d2 + 4))) with (d2 * (d1 + d2 + 4)) by (rewrite <- Z1 at 1; ring).
      replace (tp * ((d1 * x + d2) * (d1 + d2 + 4))) with ((d2 + 2) * (d1 * x + d2)) by (rewrite <- T1; ring). lra. }
    destruct (C2 H) as [P1 C]. split; [lra|]. assert (0 < k2 * (1 - r)) by (apply Rmult_lt_0_compat; lra). lra.
Qed.
Lemma upto j : (1 <= j <= 140)%nat -> 1 <= INR j <= 140.
Proof.
  intros [H1 H2]. split; [apply (le_INR 1); auto|]. apply le_INR in H2. rewrite (INR_IZR_INZ 140) in H2. exact H2.
Qed.
Theorem f_even_settled j k x : (1 <= j <= 140)%nat -> (1 <= k <= 140)%nat -> 0 < x -> ~ exhausted x (2 * INR j) (2 * INR k).
Proof.
  intros Hj Hk Hx. unfold exhausted. assert (J : 1 <= INR j <= 140) by (apply upto; auto).
  assert (K : 1 <= INR k <= 140) by (apply upto; auto).
  replace (2 * INR k / 2) with (INR k) by field. replace (2 * INR j / 2) with (INR j) by field.
  pose proof (f_range (2 * INR j) (2 * INR k) x ltac:(lra) ltac:(lra) Hx) as Rg. set (z := 2 * INR k / (2 * INR j * x + 2 * INR k)) in *. clearbody z.
  assert (G : INR k + INR j + 2 <= huge) by (pose proof (big 3 ltac:(lia)); cbn [pow] in *; lra).
  unfold settled. fold (top (INR k) (INR j)). destruct (top_1 (INR k) (INR j) ltac:(lra) ltac:(lra)) as (_ & _ & E1).
  destruct (Rle_dec (top (INR k) (INR j)) z) as [T|T].
  - assert (X : 0 < 1 - z <= top (INR j) (INR k)) by (unfold top; rewrite (Rplus_comm (INR j) (INR k)); lra).
    assert (G' : INR j + INR k + 2 <= huge) by lra.
    rewrite (settle_whole (INR j) (INR k) (1 - z) ltac:(lra) ltac:(lra) X k G' Hk eq_refl). discriminate.
  - assert (X : 0 < z <= top (INR k) (INR j)) by lra.
    rewrite (settle_whole (INR k) (INR j) z ltac:(lra) ltac:(lra) X j G Hj eq_refl). discriminate.
Qed.
Theorem f_even j k x p : (1 <= j <= 140)%nat -> (1 <= k <= 140)%nat -> 0 < x -> f_upper_tail (2 * INR j) (2 * INR k) x p ->
  exists y, fisher_snedecor_sf x (2 * INR j) (2 * INR k) = Ok y /\ Rabs (y - p) <= 1.8e-13.
Proof.
  intros Hj Hk Hx T. pose proof (f_even_settled j k x Hj Hk Hx) as S.
  assert (J : 1 <= INR j <= 140) by (apply upto; auto).
  assert (K : 1 <= INR k <= 140) by (apply upto; auto).
  destruct (f_defined (2 * INR j) (2 * INR k) x ltac:(lra) ltac:(lra) Hx) as (q & Q & Q1 & U).
  rewrite (U p T). clear U.
  assert (H100 : 2 * INR j + 2 * INR k <= 10 ^ 100).
  { assert (10 ^ 3 <= 10 ^ 100) by (apply Rle_pow; [lra|lia]). assert (10 ^ 3 = 1000) by (cbn [pow]; lra). lra. }
  destruct (f_close (2 * INR j) (2 * INR k) x q ltac:(lra) ltac:(lra) H100 Hx S Q) as (y & E & C1 & C2). exists y. split; auto. clear E S T H100.
  set (d1 := 2 * INR j) in *. set (d2 := 2 * INR k) in *.
  assert (B : forall u, 2 <= u -> (d1 + d2 + 4) / (u + 2) <= 141).
  { intros u Hu. apply Rmult_le_reg_r with (u + 2); [lra|]. unfold Rdiv. rewrite Rmult_assoc, Rinv_l by lra. unfold d1, d2. lra. }
  destruct (Rlt_dec (d2 * (d1 + 2)) (x * d1 * (d2 + 2))) as [A|A].
  - destruct (C1 A) as [Py C]. clear C1 C2. pose proof (B d1 ltac:(unfold d1; lra)) as Bd.
    assert (1.2e-15 * ((d1 + d2 + 4) / (d1 + 2)) * y <= 1.2e-15 * 141 * y) by (apply Rmult_le_compat_r; lra).
    apply Rabs_le_between in C. apply Rabs_le. lra.
  - destruct (C2 ltac:(lra)) as [Py C]. clear C1 C2. pose proof (B d2 ltac:(unfold d2; lra)) as Bd.
    assert (1.2e-15 * ((d1 + d2 + 4) / (d2 + 2)) * (1 - y) <= 1.2e-15 * 141 * (1 - y)) by (apply Rmult_le_compat_r; lra).
    apply Rabs_le_between in C. apply Rabs_le. lra.
Qed.
Theorem f_one_settled d x : 1 <= d <= 10 ^ 40 -> 0 < x -> ~ exhausted x 1 d /\ ~ exhausted x d 1.
Proof.
  intros Hd Hx. split; unfold exhausted.
  - pose proof (f_range 1 d x ltac:(lra) ltac:(lra) Hx) as Rg. rewrite stud_settled; [discriminate|lra|lra|exact Rg].
  - pose proof (f_range d 1 x ltac:(lra) ltac:(lra) Hx) as Rg. set (z := 1 / (d * x + 1)) in *. clearbody z.
    assert (G : d / 2 + 1 / 2 + 2 <= huge).
    { pose proof (big 41 ltac:(lia)). assert (10 ^ 40 + 10 <= 10 ^ 41) by (rewrite !pow_IZR, <- plus_IZR; apply IZR_le, Z.leb_le; reflexivity). lra. }
    unfold settled. fold (top (1 / 2) (d / 2)). destruct (top_1 (1 / 2) (d / 2) ltac:(lra) ltac:(lra)) as (_ & _ & E1).
    destruct (Rle_dec (top (1 / 2) (d / 2)) z) as [T|T].
    + rewrite settle_direct; [discriminate|lra| |exact G]. unfold top. rewrite (Rplus_comm (d / 2) (1 / 2)). lra.
    + rewrite settle_symm; [discriminate|lra|lra|lra].
Qed.

From Coq Require Import Reals List Arith Lra Lia Psatz.
From Verif Require Import HavSpec HavModel.
Import ListNotations.
Open Scope R_scope.

Lemma rad_eq d : to_radians d = rad d.
Proof. unfold to_radians, rad. field. Qed.
Lemma sin_half_sq x : sin (x / 2) * sin (x / 2) = (1 - cos x) / 2.
Proof. replace x with (2 * (x / 2)) at 3 by field. rewrite cos_2a_sin. field. Qed.
Definition hav_a (la lo la' lo' : R) : R :=
  sin (to_radians (la' - la) / 2) * sin (to_radians (la' - la) / 2) + sin (to_radians (lo' - lo) / 2) * sin (to_radians (lo' - lo) / 2) * cos (to_radians la) * cos (to_radians la').
Lemma a_dot la lo la' lo' : hav_a la lo la' lo' = (1 - dot3 (point la lo) (point la' lo')) / 2.
Proof.
  unfold hav_a. rewrite !sin_half_sq. assert (S : forall x y, to_radians (x - y) = to_radians x - to_radians y) by (intros; unfold to_radians; ring). rewrite !S, !cos_minus. rewrite !rad_eq. unfold dot3, point. field.
Qed.
Lemma unit_norm la lo : dot3 (point la lo) (point la lo) = 1.
Proof.
  unfold dot3, point. pose proof (sin2_cos2 (rad la)) as A. pose proof (sin2_cos2 (rad lo)) as B. unfold Rsqr in *.
  replace (cos (rad la) * cos (rad lo) * (cos (rad la) * cos (rad lo)) + cos (rad la) * sin (rad lo) * (cos (rad la) * sin (rad lo)) + sin (rad la) * sin (rad la))
    with (cos (rad la) * cos (rad la) * (sin (rad lo) * sin (rad lo) + cos (rad lo) * cos (rad lo)) + sin (rad la) * sin (rad la)) by ring. rewrite B. lra.
Qed.
Lemma dot_range u v : dot3 u u = 1 -> dot3 v v = 1 -> -1 <= dot3 u v <= 1.
Proof.
  destruct u as [[a b] c]. destruct v as [[x y] z]. unfold dot3. intros U V.
  pose proof (pow2_ge_0 (a - x)). pose proof (pow2_ge_0 (b - y)). pose proof (pow2_ge_0 (c - z)). pose proof (pow2_ge_0 (a + x)). pose proof (pow2_ge_0 (b + y)). pose proof (pow2_ge_0 (c + z)). split; nra.
Qed.
Lemma cos_2atan2 s c : 0 <= s -> 0 <= c -> s * s + c * c = 1 -> cos (2 * atan2 s c) = 1 - 2 * (s * s) /\ 0 <= 2 * atan2 s c <= PI.
Proof.
  intros S C E. unfold atan2. destruct (Rlt_dec 0 c) as [P|N].
  - assert (T : 0 <= s / c) by (apply Rmult_le_pos; [lra|left; now apply Rinv_0_lt_compat]). split.
    + rewrite cos_2a_cos. rewrite cos_atan. assert (Q : sqrt (1 + (s / c)²) = / c).
      { replace (1 + (s / c)²) with ((/ c) ^ 2); [apply sqrt_pow2; left; now apply Rinv_0_lt_compat|]. unfold Rsqr. assert (c * c <> 0) by nra. transitivity ((s * s + c * c) / (c * c)); [rewrite E; field; lra|field; lra]. }
      rewrite Q. replace (1 / / c) with c by (field; lra). lra.
    + pose proof (atan_bound (s / c)). split; [|lra]. destruct T as [T|T]; [|rewrite <- T, atan_0; lra]. pose proof (atan_increasing 0 (s / c) T) as A. rewrite atan_0 in A. lra.
  - assert (c = 0) by lra. subst c. destruct (Rlt_dec 0 0); [lra|]. assert (s = 1) by nra. subst s. destruct (Rlt_dec 0 1); [|lra]. replace (2 * (PI / 2)) with PI by field. rewrite cos_PI. pose proof PI_RGT_0. lra.
Qed.
Lemma hav_thm la lo la' lo' : exists d, haversine_elementwise la lo la' lo' = Some d /\ arc (point la lo) (point la' lo') d.
Proof.
  unfold haversine_elementwise. fold (hav_a la lo la' lo'). set (a := hav_a la lo la' lo'). pose proof (a_dot la lo la' lo') as E. fold a in E.
  pose proof (dot_range _ _ (unit_norm la lo) (unit_norm la' lo')) as D. assert (A : 0 <= a <= 1) by lra. unfold fsqrt. destruct (Rlt_dec a 0); [lra|]. destruct (Rlt_dec (1 - a) 0); [lra|].
  eexists. split; [reflexivity|]. assert (S1 : sqrt a * sqrt a = a) by (apply sqrt_sqrt; lra). assert (S2 : sqrt (1 - a) * sqrt (1 - a) = 1 - a) by (apply sqrt_sqrt; lra).
  destruct (cos_2atan2 (sqrt a) (sqrt (1 - a))) as [C B]; [apply sqrt_pos|apply sqrt_pos|lra|]. unfold arc, radius. split; [nra|].
  replace (6371 * (2 * atan2 (sqrt a) (sqrt (1 - a))) / 6371) with (2 * atan2 (sqrt a) (sqrt (1 - a))) by field. rewrite C, S1. lra.
Qed.
Lemma arc_acos u v d : arc u v d -> d = radius * acos (dot3 u v).
Proof.
  intros [[L U] E]. rewrite <- E. rewrite acos_cos; [unfold radius; field|]. unfold radius in *. split; [apply Rmult_le_reg_r with 6371; try lra; field_simplify; lra|]. apply Rmult_le_reg_r with 6371; [lra|]. unfold Rdiv. rewrite Rmult_assoc, Rinv_l; lra.
Qed.
Lemma arc_fun u v d d' : arc u v d -> arc u v d' -> d = d'.
Proof. intros A B. now rewrite (arc_acos _ _ _ A), (arc_acos _ _ _ B). Qed.
Lemma dot_comm u v : dot3 u v = dot3 v u.
Proof. destruct u as [[a b] c]. destruct v as [[x y] z]. unfold dot3. ring. Qed.
Lemma arc_sym u v d : arc u v d -> arc v u d.
Proof. unfold arc. now rewrite dot_comm. Qed.
Lemma arc_zero u v d : dot3 u u = 1 -> dot3 v v = 1 -> arc u v d -> (d = 0 <-> u = v).
Proof.
  intros U V A. split.
  - intros ->. destruct A as [_ E]. replace (0 / radius) with 0 in E by (unfold radius; field). rewrite cos_0 in E. destruct u as [[a b] c]. destruct v as [[x y] z]. unfold dot3 in *.
    assert (H : (a - x) ^ 2 + (b - y) ^ 2 + (c - z) ^ 2 = 0) by nra. pose proof (pow2_ge_0 (a - x)). pose proof (pow2_ge_0 (b - y)). pose proof (pow2_ge_0 (c - z)).
    assert (forall t, t ^ 2 = 0 -> t = 0) as Z by (intros; nra). assert (a - x = 0) by (apply Z; lra). assert (b - y = 0) by (apply Z; lra). assert (c - z = 0) by (apply Z; lra). repeat f_equal; lra.
  - intros ->. rewrite (arc_acos _ _ _ A), V, acos_1. ring.
Qed.
Lemma gram u v w : dot3 u u = 1 -> dot3 v v = 1 -> dot3 w w = 1 -> (dot3 u w - dot3 u v * dot3 v w) ^ 2 <= (1 - dot3 u v ^ 2) * (1 - dot3 v w ^ 2).
Proof.
  intros U V W. destruct u as [[a b] c]. destruct v as [[x y] z]. destruct w as [[p q] r].
  assert (G : 0 <= (a * (y * r - z * q) - b * (x * r - z * p) + c * (x * q - y * p)) ^ 2) by apply pow2_ge_0.
  set (uv := dot3 (a, b, c) (x, y, z)). set (vw := dot3 (x, y, z) (p, q, r)). set (uw := dot3 (a, b, c) (p, q, r)). set (uu := dot3 (a, b, c) (a, b, c)) in *. set (vv := dot3 (x, y, z) (x, y, z)) in *. set (ww := dot3 (p, q, r) (p, q, r)) in *.
  assert (ID : (a * (y * r - z * q) - b * (x * r - z * p) + c * (x * q - y * p)) ^ 2 = uu * vv * ww + 2 * uv * vw * uw - uu * vw ^ 2 - vv * uw ^ 2 - ww * uv ^ 2) by (unfold uv, vw, uw, uu, vv, ww, dot3; ring).
  rewrite ID, U, V, W in G. nra.
Qed.
Lemma arc_triangle u v w d e f : dot3 u u = 1 -> dot3 v v = 1 -> dot3 w w = 1 -> arc u v d -> arc v w e -> arc u w f -> f <= d + e.
Proof.
  intros U V W [[D0 D1] D] [[E0 E1] E] [[F0 F1] F]. destruct (Rle_lt_dec (PI * radius) (d + e)) as [L|L]; [lra|].
  set (al := d / radius) in *. set (be := e / radius) in *. set (ga := f / radius) in *. assert (R0 : 0 < radius) by (unfold radius; lra).
  assert (HA : d = al * radius) by (unfold al; field; lra). assert (HB : e = be * radius) by (unfold be; field; lra). assert (HC : f = ga * radius) by (unfold ga; field; lra).
  assert (A0 : 0 <= al) by nra. assert (B0 : 0 <= be) by nra. assert (C0 : 0 <= ga) by nra. assert (C1 : ga <= PI) by nra. assert (AB : al + be < PI) by nra.
  assert (T : ga <= al + be); [|nra]. destruct (Rle_lt_dec ga (al + be)) as [H|H]; [exact H|]. exfalso.
  assert (CC : cos ga < cos (al + be)) by (apply cos_decreasing_1; lra). rewrite cos_plus in CC.
  pose proof (gram u v w U V W) as G. rewrite <- D, <- E, <- F in G. assert (SA : 0 <= sin al) by (apply sin_ge_0; lra). assert (SB : 0 <= sin be) by (apply sin_ge_0; lra).
  pose proof (sin2_cos2 al) as PA. pose proof (sin2_cos2 be) as PB. unfold Rsqr in *. assert (QA : 1 - cos al ^ 2 = sin al * sin al) by nra. assert (QB : 1 - cos be ^ 2 = sin be * sin be) by nra. rewrite QA, QB in G.
  set (X := cos ga - cos al * cos be) in *. assert (XL : X < - (sin al * sin be)) by (unfold X; lra). assert (0 <= sin al * sin be) by nra. nra.
Qed.
Lemma arc_antipode u v d : dot3 u u = 1 -> dot3 v v = 1 -> arc u v d -> 0 <= d <= PI * 6371.
Proof. intros _ _ [H _]. exact H. Qed.
(** Rows. *)
Lemma nth_combine {A B} (x : list A) (y : list B) i a b : length x = length y -> nth i (combine x y) (a, b) = (nth i x a, nth i y b).
Proof. apply combine_nth. Qed.
Lemma cell_ok a b c d : row_ok a b c d (cell_of a b c d).
Proof.
  unfold row_ok, cell_of. destruct a as [a|], b as [b|], c as [c|], d as [d|]; try easy. destruct (hav_thm a b c d) as [r [-> A]]. now exists r.
Qed.
Lemma cols_thm x1 x2 y1 y2 : length x2 = length x1 -> length y1 = length x1 -> length y2 = length x1 -> (length x1 = 1%nat -> ~ In None y1 /\ ~ In None y2) ->
  exists out, naive_haversine x1 x2 y1 y2 = Ok out /\ length out = length x1 /\ forall i, (i < length x1)%nat -> row_ok (nth i x1 None) (nth i x2 None) (nth i y1 None) (nth i y2 None) (nth i out Null).
Proof.
  intros L2 L3 L4 N. assert (E : naive_haversine x1 x2 y1 y2 = Ok (map (fun p => cell_of (fst (fst p)) (snd (fst p)) (fst (snd p)) (snd (snd p))) (combine (combine x1 x2) (combine y1 y2)))).
  { unfold naive_haversine. rewrite L2, L3, L4, !Nat.eqb_refl. cbn [andb]. destruct y1 as [|a [|a' y1]]; try easy. destruct y2 as [|b [|b' y2]]; try easy. cbn in L3. symmetry in L3. specialize (N L3). destruct N as [N1 N2].
    destruct a as [a|]; [|destruct N1; now left]. destruct b as [b|]; [|destruct N2; now left]. destruct x1 as [|u [|u' x1]]; try easy. destruct x2 as [|w [|w' x2]]; try easy. }
  eexists. split; [exact E|]. split; [rewrite map_length, !combine_length; lia|]. intros i I.
  set (g := fun p : (option R * option R) * (option R * option R) => cell_of (fst (fst p)) (snd (fst p)) (fst (snd p)) (snd (snd p))). 
  rewrite (nth_indep _ Null (g ((None, None), (None, None)))) by (rewrite map_length, !combine_length; lia). rewrite map_nth, !combine_nth by (rewrite ?combine_length; lia). apply cell_ok.
Qed.
Lemma scalar_thm x1 x2 a b : length x2 = length x1 ->
  exists out, naive_haversine x1 x2 [Some a] [Some b] = Ok out /\ length out = length x1 /\ forall i, (i < length x1)%nat -> row_ok (nth i x1 None) (nth i x2 None) (Some a) (Some b) (nth i out Null).
Proof.
  intro L. eexists. split; [reflexivity|]. split; [rewrite map_length, combine_length; lia|]. intros i I. set (g := fun p : option R * option R => cell_of (fst p) (snd p) (Some a) (Some b)).
  rewrite (nth_indep _ Null (g (None, None))) by (rewrite map_length, combine_length; lia). rewrite map_nth, combine_nth by now symmetry. apply cell_ok.
Qed.
Lemma null_scalar x1 x2 y : naive_haversine x1 x2 [None] [y] = Panic /\ naive_haversine x1 x2 [y] [None] = Panic.
Proof. split; [easy|]. now destruct y. Qed.
Lemma x_scalar a b y1 y2 : length y1 <> 1%nat -> naive_haversine [a] [b] y1 y2 = Err.
Proof. intro N. unfold naive_haversine. destruct y1 as [|c [|d y1]]; easy. Qed.
(** Special positions. *)
Lemma meridian la la' lo : Rabs (la' - la) <= 180 -> arc (point la lo) (point la' lo) (radius * rad (Rabs (la' - la))).
Proof.
  intro H. pose proof PI_RGT_0 as P. pose proof (Rabs_pos (la' - la)) as Q. unfold arc. split.
  - unfold rad, radius. split; [apply Rmult_le_pos; [lra|]; apply Rmult_le_pos; [nra|lra]|]. nra.
  - replace (radius * rad (Rabs (la' - la)) / radius) with (rad (Rabs (la' - la))) by (unfold radius; field). assert (C : cos (rad (Rabs (la' - la))) = cos (rad la' - rad la)).
    { unfold Rabs. destruct (Rcase_abs (la' - la)); [rewrite <- cos_neg|]; f_equal; unfold rad; field. }
    rewrite C, cos_minus. unfold dot3, point. pose proof (sin2_cos2 (rad lo)) as B. unfold Rsqr in B. replace (cos (rad la) * cos (rad lo) * (cos (rad la') * cos (rad lo)) + cos (rad la) * sin (rad lo) * (cos (rad la') * sin (rad lo)) + sin (rad la) * sin (rad la')) with (cos (rad la) * cos (rad la') * (sin (rad lo) * sin (rad lo) + cos (rad lo) * cos (rad lo)) + sin (rad la) * sin (rad la')) by ring. rewrite B. ring.
Qed.
Lemma rotate la lo la' lo' t : dot3 (point la (lo + t)) (point la' (lo' + t)) = dot3 (point la lo) (point la' lo').
Proof.
  pose proof (a_dot la lo la' lo') as A. pose proof (a_dot la (lo + t) la' (lo' + t)) as B. assert (E : hav_a la (lo + t) la' (lo' + t) = hav_a la lo la' lo') by (unfold hav_a; replace (lo' + t - (lo + t)) with (lo' - lo) by ring; reflexivity). lra.
Qed.

Lemma metric_thm la lo la' lo' la'' lo'' : exists d e f, haversine_elementwise la lo la' lo' = Some d /\ haversine_elementwise la' lo' la'' lo'' = Some e /\ haversine_elementwise la lo la'' lo'' = Some f /\
  haversine_elementwise la' lo' la lo = Some d /\ 0 <= d <= PI * 6371 /\ (d = 0 <-> point la lo = point la' lo') /\ f <= d + e.
Proof.
  destruct (hav_thm la lo la' lo') as [d [D A]]. destruct (hav_thm la' lo' la'' lo'') as [e [E B]]. destruct (hav_thm la lo la'' lo'') as [f [F C]]. destruct (hav_thm la' lo' la lo) as [d' [D' A']].
  exists d, e, f. repeat (split; [assumption|]). split; [rewrite D'; f_equal; exact (arc_fun _ _ _ _ A' (arc_sym _ _ _ A))|]. split; [exact (proj1 A)|]. split; [apply arc_zero; try assumption; apply unit_norm|]. eapply arc_triangle; try eassumption; apply unit_norm.
Qed.
Lemma place_thm la lo la' lo' t : haversine_elementwise la (lo + t) la' (lo' + t) = haversine_elementwise la lo la' lo' /\
  (Rabs (la' - la) <= 180 -> haversine_elementwise la lo la' lo = Some (6371 * (Rabs (la' - la) * PI / 180))).
Proof.
  split.
  - destruct (hav_thm la lo la' lo') as [d [-> A]]. destruct (hav_thm la (lo + t) la' (lo' + t)) as [e [-> B]]. f_equal. unfold arc in B. rewrite rotate in B. exact (arc_fun _ _ _ _ B A).
  - intro H. destruct (hav_thm la lo la' lo) as [d [-> A]]. f_equal. exact (arc_fun _ _ _ _ A (meridian la la' lo H)).
Qed.
Lemma quarter : arc (point 0 0) (point 0 90) (radius * (PI / 2)) /\ point 0 0 <> point 0 90.
Proof.
  pose proof PI_RGT_0. assert (E : rad 0 = 0) by (unfold rad; field). assert (F : rad 90 = PI / 2) by (unfold rad; field). split.
  - unfold arc. split; [unfold radius; nra|]. replace (radius * (PI / 2) / radius) with (PI / 2) by (unfold radius; field). unfold dot3, point. rewrite E, F, cos_PI2, sin_PI2, cos_0, sin_0. ring.
  - unfold point. rewrite E, F, cos_PI2, sin_PI2, cos_0, sin_0. intro C. injection C as C _. lra.
Qed.

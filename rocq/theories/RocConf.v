From Coq Require Import Bool List ZArith QArith Lia Lqa Arith.
From Verif Require Import PairSums QSum MwProofs TrapzModel RocModel RocSpec RocProofs.
Import ListNotations.
Open Scope Z_scope.

Definition code (r : bool * bool) : Z := 2 * b2z (fst r) + b2z (snd r).
Lemma combine_code rows : combine_labels (map fst rows) (map snd rows) = map code rows.
Proof. unfold combine_labels, code. now rewrite zipw_map. Qed.

Lemma cell_cons r rows t p : cell (r :: rows) t p = b2z (Bool.eqb (fst r) t && Bool.eqb (snd r) p) + cell rows t p.
Proof. unfold cell. rewrite !zlen_filter. reflexivity. Qed.
Lemma cell_nonneg rows t p : 0 <= cell rows t p.
Proof. apply zlen_nonneg. Qed.
Lemma cells_sum rows : cell rows false false + cell rows false true + cell rows true false + cell rows true true = zlen rows.
Proof.
  induction rows as [|[a b] rows IH]; [reflexivity|]. rewrite !cell_cons. cbn [fst snd].
  unfold zlen in *. cbn [length]. rewrite Nat2Z.inj_succ, <- IH. destruct a, b; cbn [Bool.eqb andb b2z]; lia.
Qed.
Lemma list4 (a b c d a' b' c' d' : Z) : a = a' -> b = b' -> c = c' -> d = d' -> [a; b; c; d] = [a'; b'; c'; d'].
Proof. congruence. Qed.
Lemma conf_fold : forall rows a b c d, 0 <= a -> 0 <= b -> 0 <= c -> 0 <= d -> a + b + c + d + zlen rows < 2 ^ 32 ->
  fold_left (fun acc i => bump (Z.to_nat (i mod 4)) acc) (map code rows) [a; b; c; d] =
  [a + cell rows false false; b + cell rows false true; c + cell rows true false; d + cell rows true true].
Proof.
  induction rows as [|[t p] rows IH]; intros a b c d Ha Hb Hc Hd L.
  - cbn. now rewrite !Z.add_0_r.
  - assert (L' : a + b + c + d + 1 + zlen rows < 2 ^ 32) by (unfold zlen in *; cbn [length] in L; lia).
    pose proof (zlen_nonneg rows). rewrite !cell_cons. cbn [map fold_left fst snd].
    destruct t, p; unfold code; cbn [fst snd b2z Bool.eqb andb];
      [change (Z.to_nat ((2 * 1 + 1) mod 4)) with 3%nat|change (Z.to_nat ((2 * 1 + 0) mod 4)) with 2%nat
      |change (Z.to_nat ((2 * 0 + 1) mod 4)) with 1%nat|change (Z.to_nat ((2 * 0 + 0) mod 4)) with 0%nat];
      cbn [bump]; rewrite u32_small by lia; rewrite IH by lia; apply list4; lia.
Qed.
Theorem confusion_ok rows : zlen rows < 2 ^ 32 ->
  confusion (combine_labels (map fst rows) (map snd rows)) =
  [cell rows false false; cell rows false true; cell rows true false; cell rows true true].
Proof. intros L. rewrite combine_code. unfold confusion. rewrite conf_fold by lia. now rewrite !Z.add_0_l. Qed.

Theorem mcc_ok rows : zlen rows < 2 ^ 32 ->
  let tn := cell rows false false in let fp := cell rows false true in
  let fn := cell rows true false in let tp := cell rows true true in
  mcc_parts (combine_labels (map fst rows) (map snd rows)) =
  (u32 (tp * tn) - u32 (fn * fp), (tp + fn) * (tp + fp) * (fp + tn) * (fn + tn)).
Proof.
  intros L. cbv zeta. unfold mcc_parts. rewrite (confusion_ok rows L).
  pose proof (cells_sum rows). pose proof (cell_nonneg rows false false). pose proof (cell_nonneg rows false true).
  pose proof (cell_nonneg rows true false). pose proof (cell_nonneg rows true true).
  rewrite !(u32_small (_ + _)) by lia. reflexivity.
Qed.

(** The squared numerator is bounded by the product under the root. *)
Lemma mcc_bound a b c d : 0 <= a -> 0 <= b -> 0 <= c -> 0 <= d ->
  (d * a - c * b) * (d * a - c * b) <= (d + c) * (d + b) * (b + a) * (c + a).
Proof.
  intros.
  assert (0 <= a * b) by nia. assert (0 <= a * c) by nia. assert (0 <= a * d) by nia.
  assert (0 <= b * c) by nia. assert (0 <= b * d) by nia. assert (0 <= c * d) by nia.
  assert (E : (d + c) * (d + b) * (b + a) * (c + a) =
    (d * d + d * b + c * d + c * b) * (b * c + a * b + a * c + a * a)) by ring.
  rewrite E. clear E.
  assert (X : (d * a - c * b) * (d * a - c * b) <= (d * a) * (d * a) + (c * b) * (c * b)) by nia.
  assert (Y : (d * d + d * b + c * d + c * b) * (b * c + a * b + a * c + a * a) =
     (d * a) * (d * a) + (c * b) * (c * b) + (d * d) * (b * c + a * b + a * c) + (d * b + c * d) * (b * c + a * b + a * c + a * a)
     + (c * b) * (a * b + a * c + a * a)) by ring.
  assert (0 <= (d * d) * (b * c + a * b + a * c)) by nia.
  assert (0 <= (d * b + c * d) * (b * c + a * b + a * c + a * a)) by nia.
  assert (0 <= (c * b) * (a * b + a * c + a * a)) by nia. lia.
Qed.

Lemma cell_repeat n t p t' p' : cell (repeat (t, p) n) t' p' = if Bool.eqb t t' && Bool.eqb p p' then Z.of_nat n else 0.
Proof.
  induction n as [|n IH]; [cbn; now destruct (_ && _)|]. cbn [repeat]. rewrite cell_cons, IH. cbn [fst snd].
  destruct (_ && _); cbn [b2z]; lia.
Qed.
Lemma cell_app r1 r2 t p : cell (r1 ++ r2) t p = cell r1 t p + cell r2 t p.
Proof. unfold cell. rewrite filter_app. unfold zlen. rewrite app_length. lia. Qed.
(** 65536 true positives and 65536 true negatives, no error. *)
Definition mcc_wrap_rows : list (bool * bool) := repeat (true, true) (Z.to_nat 65536) ++ repeat (false, false) (Z.to_nat 65536).
Lemma mcc_wrap :
  cell mcc_wrap_rows true true = 65536 /\ cell mcc_wrap_rows false false = 65536 /\
  cell mcc_wrap_rows true false = 0 /\ cell mcc_wrap_rows false true = 0 /\
  fst (mcc_parts (combine_labels (map fst mcc_wrap_rows) (map snd mcc_wrap_rows))) = 0 /\
  0 < snd (mcc_parts (combine_labels (map fst mcc_wrap_rows) (map snd mcc_wrap_rows))).
Proof.
  assert (C : forall t p, cell mcc_wrap_rows t p = (if t && p then 65536 else 0) + (if negb t && negb p then 65536 else 0)).
  { intros t p. unfold mcc_wrap_rows. rewrite cell_app, !cell_repeat, Z2Nat.id by lia. destruct t, p; reflexivity. }
  assert (L : zlen mcc_wrap_rows < 2 ^ 32).
  { rewrite <- cells_sum, !C. cbn. lia. }
  rewrite (mcc_ok _ L), !C. cbn [fst snd]. repeat split; try reflexivity.
Qed.

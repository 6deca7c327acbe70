From Coq Require Import Bool List ZArith QArith Qpower Ascii Lia Lqa.
From Verif Require Import PairSums MwProofs RocModel RocProofs PsiProofs DigitModel DigitSpec.
Import ListNotations.
Open Scope Z_scope.

(** The digit loop. *)
Lemma loop_ok : forall fuel v d, Z.log2 (Z.abs v) < Z.of_nat fuel -> v <> 0 ->
  exists e k, digit_loop fuel v d = Some e /\ 1 <= Z.abs e <= 9 /\ 0 <= k /\ Z.abs e * 10 ^ k <= Z.abs v < (Z.abs e + 1) * 10 ^ k.
Proof.
  induction fuel as [|fuel IH]; intros v d F N.
  - pose proof (Z.log2_nonneg (Z.abs v)). cbn in F. lia.
  - cbn [digit_loop]. rewrite (proj2 (Z.eqb_neq v 0) N).
    assert (Q0 : Z.abs v = 10 * Z.abs (Z.quot v 10) + Z.abs (Z.rem v 10) /\ 0 <= Z.abs (Z.rem v 10) < 10).
    { Z.to_euclidean_division_equations. lia. }
    destruct (Z.eq_dec (Z.quot v 10) 0) as [E|E].
    + rewrite E in *. exists (Z.rem v 10), 0. destruct fuel; cbn [digit_loop Z.eqb]; (split; [reflexivity|]); cbn [Z.abs] in Q0; rewrite Z.pow_0_r; lia.
    + destruct (IH (Z.quot v 10) (Z.rem v 10)) as (e & k & R & D & K & B).
      * assert (Z.log2 (Z.abs (Z.quot v 10)) <= Z.log2 (Z.abs v / 2)).
        { apply Z.log2_le_mono. apply Z.div_le_lower_bound; lia. }
        assert (Z.log2 (Z.abs v / 2) < Z.log2 (Z.abs v)).
        { replace (Z.abs v / 2) with (Z.shiftr (Z.abs v) 1) by (rewrite Z.shiftr_div_pow2; [reflexivity|lia]).
          rewrite Z.log2_shiftr by lia. assert (1 <= Z.log2 (Z.abs v)) by (apply Z.log2_le_pow2; lia). lia. }
        lia.
      * exact E.
      * exists e, (k + 1). split; [exact R|]. split; [exact D|]. split; [lia|]. rewrite Z.pow_add_r by lia. change (10 ^ 1) with 10. nia.
Qed.
Lemma first_digit_ok v : v <> 0 -> exists e, first_digit v = Some e /\ leading (Z.abs e) v.
Proof.
  intros N. unfold first_digit. destruct (loop_ok (S (Z.to_nat (Z.log2 (Z.abs v)))) v 0) as (e & k & R & D & K & B).
  - pose proof (Z.log2_nonneg (Z.abs v)). lia.
  - exact N.
  - exists e. split; [exact R|]. split; [exact D|]. eauto.
Qed.
Lemma first_digit_zero : first_digit 0 = Some 0.
Proof. reflexivity. Qed.
Lemma pow10_lt a b : 0 <= a -> a < b -> 10 * 10 ^ a <= 10 ^ b.
Proof. intros H1 H2. change (10 * 10 ^ a) with (10 ^ 1 * 10 ^ a). rewrite <- Z.pow_add_r by lia. apply Z.pow_le_mono_r; lia. Qed.
Lemma leading_unique d e v : leading d v -> leading e v -> d = e.
Proof.
  intros [D (k & K & B)] [E (m & M & C)]. assert (k = m).
  { destruct (Z.lt_trichotomy k m) as [L|[->|L]]; [|reflexivity|].
    - pose proof (pow10_lt k m K L). assert (0 < 10 ^ k) by (apply Z.pow_pos_nonneg; lia). nia.
    - pose proof (pow10_lt m k M L). assert (0 < 10 ^ m) by (apply Z.pow_pos_nonneg; lia). nia. }
  subst m. assert (0 < 10 ^ k) by (apply Z.pow_pos_nonneg; lia). nia.
Qed.
Lemma leading_nonzero d v : leading d v -> v <> 0.
Proof. intros [D (k & K & B)] ->. assert (0 < 10 ^ k) by (apply Z.pow_pos_nonneg; lia). cbn in B. nia. Qed.

(** The counting loop, for any digit function. *)
Section Count.
Context {T : Type} (idx : T -> option Z) (dig : T -> Z).
Lemma count_loop : forall (l : list T) c, length c = 10%nat -> (forall x, In x l -> idx x = Some (dig x) /\ 0 <= dig x < 10) ->
  (forall a, In a c -> 0 <= a /\ a + zlen l < 2 ^ 32) ->
  exists c', fold_left (fun out x => count_at out (idx x)) l (Some c) = Some c' /\ length c' = 10%nat /\
    forall j a, nth_error c j = Some a -> nth_error c' j = Some (a + zlen (filter (fun x => dig x =? Z.of_nat j) l)).
Proof.
  induction l as [|x l IH]; intros c L D W.
  - exists c. split; [reflexivity|]. split; [exact L|]. intros j a H. rewrite H. unfold zlen. cbn. f_equal. ring.
  - cbn [fold_left]. destruct (D x (or_introl eq_refl)) as [E B]. unfold count_at at 2. rewrite E.
    rewrite (proj2 (Z.leb_le 0 (dig x))), (proj2 (Z.ltb_lt (dig x) 10)) by lia. cbn [andb].
    assert (Z1 : zlen (x :: l) = zlen l + 1) by (unfold zlen; cbn [length]; lia). pose proof (zlen_nonneg l).
    destruct (IH (bump (Z.to_nat (dig x)) c)) as (c' & R & L' & N).
    + now rewrite bump_length.
    + intros y Hy. apply D. now right.
    + intros a Ha. apply In_nth_error in Ha. destruct Ha as (j & Hj). rewrite bump_nth in Hj.
      destruct (nth_error c j) as [a0|] eqn:Ej; [|discriminate]. cbn in Hj. injection Hj as <-.
      destruct (W a0) as [W1 W2]; [eapply nth_error_In; eassumption|].
      destruct (Z.to_nat (dig x) =? j)%nat; [rewrite u32_small by lia|]; lia.
    + exists c'. split; [exact R|]. split; [exact L'|]. intros j a Hj. destruct (W a) as [W1 W2]; [eapply nth_error_In; eassumption|].
      rewrite (N j (if (Z.to_nat (dig x) =? j)%nat then u32 (a + 1) else a)) by (now rewrite bump_nth, Hj).
      cbn [filter]. destruct (Nat.eqb_spec (Z.to_nat (dig x)) j) as [E2|E2].
      * rewrite (proj2 (Z.eqb_eq (dig x) (Z.of_nat j))) by lia. rewrite u32_small by lia. f_equal. unfold zlen. cbn [length]. lia.
      * rewrite (proj2 (Z.eqb_neq (dig x) (Z.of_nat j))) by lia. reflexivity.
Qed.
Lemma count_all (l : list T) : (forall x, In x l -> idx x = Some (dig x) /\ 0 <= dig x < 10) -> zlen l < 2 ^ 32 ->
  option_map (@tl Z) (fold_left (fun out x => count_at out (idx x)) l (Some ten_zeros)) =
  Some (map (fun d => zlen (filter (fun x => dig x =? d) l)) [1; 2; 3; 4; 5; 6; 7; 8; 9]).
Proof.
  intros D L. destruct (count_loop l ten_zeros eq_refl D) as (c' & R & L' & N).
  - intros a Ha. apply repeat_spec in Ha. subst a. lia.
  - rewrite R. cbn [option_map]. f_equal.
    do 10 (destruct c' as [|? c']; [discriminate L'|]). destruct c'; [|discriminate L']. cbn [tl map].
    pose proof (N 1%nat 0 eq_refl) as N1. pose proof (N 2%nat 0 eq_refl) as N2. pose proof (N 3%nat 0 eq_refl) as N3.
    pose proof (N 4%nat 0 eq_refl) as N4. pose proof (N 5%nat 0 eq_refl) as N5. pose proof (N 6%nat 0 eq_refl) as N6.
    pose proof (N 7%nat 0 eq_refl) as N7. pose proof (N 8%nat 0 eq_refl) as N8. pose proof (N 9%nat 0 eq_refl) as N9.
    cbn [nth_error] in *. rewrite !Z.add_0_l in *. cbn [Z.of_nat Pos.of_succ_nat Pos.succ] in *. congruence.
Qed.
End Count.

Definition int_digit (x : bool * Z) : Z := match first_digit (snd x) with Some e => Z.abs e | None => 0 end.
Lemma int_digit_lead d x : 1 <= d <= 9 -> int_digit x = d <-> leading d (snd x).
Proof.
  intros D. unfold int_digit. destruct (Z.eq_dec (snd x) 0) as [E|E].
  - rewrite E, first_digit_zero. cbn [Z.abs]. split; [lia|]. intros H. now apply leading_nonzero in H.
  - destruct (first_digit_ok (snd x) E) as (e & -> & L). split; [intros <-; exact L|]. intros L'. exact (leading_unique _ _ _ L L').
Qed.
Lemma int_digit_range x : option_map Z.abs (first_digit (snd x)) = Some (int_digit x) /\ 0 <= int_digit x < 10.
Proof.
  unfold int_digit. destruct (Z.eq_dec (snd x) 0) as [E|E].
  - rewrite E, first_digit_zero. split; [reflexivity|cbn; lia].
  - destruct (first_digit_ok (snd x) E) as (e & -> & L & _). split; [reflexivity|lia].
Qed.
(** The counts, as read by the code: physical values of all slots. *)
Theorem first_digit_cnt_physical col : zlen col < 2 ^ 32 ->
  exists out, first_digit_cnt col = Some out /\ length out = 9%nat /\
    (forall d (p : Z -> bool), 1 <= d <= 9 -> (forall v, p v = true <-> leading d v) ->
       nth_error out (Z.to_nat (d - 1)) = Some (zlen (filter p (map snd col)))) /\
    zsum (fun x => x) out = zlen (filter (fun v => negb (v =? 0)) (map snd col)).
Proof.
  intros L. eexists. split; [unfold first_digit_cnt; apply (count_all (fun x => option_map Z.abs (first_digit (snd x))) int_digit); [intros x _; apply int_digit_range|exact L]|].
  split; [reflexivity|]. split.
  - intros d p D P.
    assert (E : zlen (filter p (map snd col)) = zlen (filter (fun x => int_digit x =? d) col)).
    { rewrite filter_map. unfold zlen. rewrite map_length. f_equal. f_equal. apply filter_ext. intros x. apply eq_true_iff_eq.
      rewrite P, Z.eqb_eq. symmetry. now apply int_digit_lead. }
    rewrite E. assert (C : d = 1 \/ d = 2 \/ d = 3 \/ d = 4 \/ d = 5 \/ d = 6 \/ d = 7 \/ d = 8 \/ d = 9) by lia.
    repeat destruct C as [->|C]; try reflexivity. subst d. reflexivity.
  - clear L. induction col as [|x col IH]; [reflexivity|]. cbn [map filter].
    assert (S0 : forall d, zlen (if int_digit x =? d then x :: filter (fun x => int_digit x =? d) col else filter (fun x => int_digit x =? d) col) = b2z (int_digit x =? d) + zlen (filter (fun x => int_digit x =? d) col)).
    { intros d. unfold zlen. destruct (int_digit x =? d); cbn [length b2z]; lia. }
    unfold zsum in *. cbn [map fold_right filter] in *. rewrite !S0.
    destruct (Z.eqb_spec (snd x) 0) as [E|E]; cbn [negb].
    + assert (I : int_digit x = 0) by (unfold int_digit; rewrite E; reflexivity). rewrite I. cbn [Z.eqb b2z]. lia.
    + assert (1 <= int_digit x <= 9) by (unfold int_digit; destruct (first_digit_ok (snd x) E) as (e & -> & Le & _); exact Le).
      assert (C : int_digit x = 1 \/ int_digit x = 2 \/ int_digit x = 3 \/ int_digit x = 4 \/ int_digit x = 5 \/ int_digit x = 6 \/ int_digit x = 7 \/ int_digit x = 8 \/ int_digit x = 9) by lia.
      assert (Zc : forall a (l : list Z), zlen (a :: l) = 1 + zlen l) by (intros; unfold zlen; cbn [length]; lia). rewrite Zc.
      repeat destruct C as [C|C]; rewrite C; cbn [Z.eqb Pos.eqb b2z]; lia.
Qed.

(** Text. *)
Lemma to_digit_spec c : to_digit c = digit_of c.
Proof. destruct c as [[|] [|] [|] [|] [|] [|] [|] [|]]; reflexivity. Qed.
Lemma digit_range c d : digit_of c = Some d -> 0 <= d <= 9.
Proof. destruct c as [[|] [|] [|] [|] [|] [|] [|] [|]]; cbn; intros H; try discriminate; injection H as <-; lia. Qed.
Lemma skip_spec c : skip_char c = true <-> digit_of c = Some 0 \/ c = "."%char.
Proof. destruct c as [[|] [|] [|] [|] [|] [|] [|] [|]]; cbn; split; intros H; try discriminate; auto; destruct H; discriminate. Qed.
Lemma digits_app t1 t2 acc : digits (t1 ++ t2) acc = match digits t1 acc with Some a => digits t2 a | None => None end.
Proof. revert acc. induction t1 as [|c t1 IH]; intros acc; cbn; [reflexivity|]. destruct (digit_of c); [apply IH|reflexivity]. Qed.
Lemma digits_bound t : forall acc n, 0 <= acc -> digits t acc = Some n -> acc * 10 ^ Z.of_nat (length t) <= n < (acc + 1) * 10 ^ Z.of_nat (length t).
Proof.
  induction t as [|c t IH]; intros acc n A H; cbn [digits length] in *.
  - injection H as <-. rewrite Z.pow_0_r. lia.
  - destruct (digit_of c) as [d|] eqn:E; [|discriminate]. apply digit_range in E. apply IH in H; [|lia].
    rewrite Nat2Z.inj_succ, Z.pow_succ_r by lia. assert (0 < 10 ^ Z.of_nat (length t)) by (apply Z.pow_pos_nonneg; lia). nia.
Qed.
Lemma digits_lead t : forall n, digits t 0 = Some n ->
  (n = 0 /\ filter (fun c => negb (skip_char c)) t = []) \/
  (exists c l d, filter (fun c => negb (skip_char c)) t = c :: l /\ digit_of c = Some d /\ leading d n /\ 0 < n).
Proof.
  induction t as [|c t IH]; intros n H; cbn [digits filter] in *; [injection H as <-; left; split; reflexivity|].
  destruct (digit_of c) as [d|] eqn:E; [|discriminate]. destruct (skip_char c) eqn:S; cbn [negb].
  - apply skip_spec in S. destruct S as [S|S]; [|subst c; discriminate]. rewrite E in S. injection S as ->. apply IH. exact H.
  - right. pose proof (digit_range c d E). assert (Nz : d <> 0) by (intros ->; assert (X : skip_char c = true) by (apply skip_spec; now left); congruence).
    exists c, (filter (fun c => negb (skip_char c)) t), d. split; [reflexivity|]. split; [exact E|].
    apply digits_bound in H; [|lia]. replace (10 * 0 + d) with d in H by ring. assert (0 < 10 ^ Z.of_nat (length t)) by (apply Z.pow_pos_nonneg; lia).
    split; [|nia]. split; [lia|]. exists (Z.of_nat (length t)). split; [lia|]. rewrite Z.abs_eq by nia. exact H.
Qed.
Lemma Qpow10_inj k : 0 <= k -> (Qpower 10 k == inject_Z (10 ^ k))%Q.
Proof.
  intros H. change 10%Q with (inject_Z 10) at 1. symmetry. apply Zpower_Qpower. exact H.
Qed.
Theorem text_digit_ok t q : denotes t q ->
  exists d, text_digit t = Some d /\ 0 <= d < 10 /\ ((q == 0)%Q /\ d = 0 \/ leading_q d q).
Proof.
  intros (i & f & n & T & D & ->). unfold text_digit.
  assert (F : filter (fun c => negb (skip_char c)) t = filter (fun c => negb (skip_char c)) (i ++ f)).
  { destruct T as [[-> ->]| ->]; [now rewrite app_nil_r|]. rewrite !filter_app. reflexivity. }
  rewrite F. destruct (digits_lead (i ++ f) n D) as [[-> ->]|(c & l & d & -> & E & [R (k & K & B)] & P)].
  - exists 0. split; [reflexivity|]. split; [lia|]. left. split; [|reflexivity]. ring.
  - exists d. rewrite to_digit_spec. split; [exact E|]. split; [lia|]. right. split; [exact R|].
    exists (k + - Z.of_nat (length f)). rewrite Qpower_plus by (intros X; discriminate X).
    rewrite Z.abs_eq in B by lia. rewrite !Qmult_assoc, (Qpow10_inj k K), <- !inject_Z_mult.
    assert (Pq : (0 < Qpower 10 (- Z.of_nat (length f)))%Q) by (apply Qpower_0_lt; reflexivity).
    split; [apply Qmult_le_compat_r; [|apply Qlt_le_weak, Pq]|apply Qmult_lt_compat_r; [exact Pq|]]; [rewrite <- Zle_Qle|rewrite <- Zlt_Qlt]; lia.
Qed.
Lemma pow10_ge k m : k < m -> (10 * Qpower 10 k <= Qpower 10 m)%Q.
Proof.
  intros H. replace m with ((m - k) + k) by ring. rewrite Qpower_plus by (intros X; discriminate X).
  assert (P : (0 < Qpower 10 k)%Q) by (apply Qpower_0_lt; reflexivity). apply Qmult_le_compat_r; [|apply Qlt_le_weak, P].
  rewrite Qpow10_inj by lia. change 10%Q with (inject_Z (10 ^ 1)). rewrite <- Zle_Qle. apply Z.pow_le_mono_r; lia.
Qed.
Lemma leading_q_unique d e q : leading_q d q -> leading_q e q -> d = e.
Proof.
  intros [D (k & B1 & B2)] [E (m & C1 & C2)].
  assert (I : forall a b : Z, (a <= b) -> (inject_Z a <= inject_Z b)%Q) by (intros a b H; now rewrite <- Zle_Qle).
  assert (P : forall z, (0 < Qpower 10 z)%Q) by (intros z; apply Qpower_0_lt; reflexivity).
  assert (A : forall d e k m, 1 <= d <= 9 -> 1 <= e <= 9 -> (q < inject_Z (d + 1) * Qpower 10 k)%Q -> (inject_Z e * Qpower 10 m <= q)%Q -> k < m -> False).
  { clear - I P. intros d e k m D E B C L. pose proof (pow10_ge k m L) as G. pose proof (I (d + 1) 10 ltac:(lia)) as G1. pose proof (I 1 e ltac:(lia)) as G2.
    pose proof (P k) as G3. pose proof (P m) as G4. change (inject_Z 10) with 10%Q in G1. change (inject_Z 1) with 1%Q in G2.
    assert ((inject_Z (d + 1) * Qpower 10 k <= 10 * Qpower 10 k)%Q) by (apply Qmult_le_compat_r; [exact G1|now apply Qlt_le_weak]).
    assert ((1 * Qpower 10 m <= inject_Z e * Qpower 10 m)%Q) by (apply Qmult_le_compat_r; [exact G2|now apply Qlt_le_weak]). lra. }
  destruct (Z.lt_trichotomy k m) as [L|[->|L]]; [exfalso; exact (A d e k m D E B2 C1 L)| |exfalso; exact (A e d m k E D C2 B1 L)].
  assert (H1 : (inject_Z d < inject_Z (e + 1))%Q) by (apply (Qmult_lt_r _ _ _ (P m)); lra).
  assert (H2 : (inject_Z e < inject_Z (d + 1))%Q) by (apply (Qmult_lt_r _ _ _ (P m)); lra).
  rewrite <- Zlt_Qlt in H1, H2. lia.
Qed.
Lemma leading_q_pos d q : leading_q d q -> ~ (q == 0)%Q.
Proof.
  intros [D (k & B1 & _)] E. assert (P : (0 < Qpower 10 k)%Q) by (apply Qpower_0_lt; reflexivity).
  assert (H : (0 < inject_Z d)%Q) by (change 0%Q with (inject_Z 0); rewrite <- Zlt_Qlt; lia).
  assert (H2 : (0 < inject_Z d * Qpower 10 k)%Q) by now apply Qmult_lt_0_compat. lra.
Qed.

Fixpoint texts (l : list (option (list ascii))) : list (list ascii) :=
  match l with [] => [] | Some t :: l' => t :: texts l' | None :: l' => texts l' end.
Lemma fold_texts (col : slots (option (list ascii))) : forall c,
  fold_left (fun out x => match snd x with None => out | Some t => count_at out (text_digit t) end) col c =
  fold_left (fun out t => count_at out (text_digit t)) (texts (map snd col)) c.
Proof. induction col as [|[b [t|]] col IH]; intros c; cbn [fold_left map texts snd]; auto. Qed.
Lemma texts_len (l : list (option (list ascii))) : zlen (texts l) <= zlen l.
Proof. unfold zlen. induction l as [|[t|] l IH]; cbn [texts length]; lia. Qed.
Theorem first_digit_cnt_text_physical (col : slots (option (list ascii))) : zlen col < 2 ^ 32 ->
  (forall t, In (Some t) (map snd col) -> exists q, denotes t q) ->
  exists out, first_digit_cnt_text col = Some out /\ length out = 9%nat /\
    (forall d (p : list ascii -> bool), 1 <= d <= 9 -> (forall t q, denotes t q -> (p t = true <-> leading_q d q)) ->
       nth_error out (Z.to_nat (d - 1)) = Some (zlen (filter p (texts (map snd col))))).
Proof.
  intros L H.
  assert (H' : forall t, In t (texts (map snd col)) -> exists q, denotes t q).
  { intros t Ht. apply H. clear - Ht. induction (map snd col) as [|[u|] l IH]; cbn in *; [destruct Ht| |right; auto]. destruct Ht as [->|Ht]; [now left|right; auto]. }
  pose proof (texts_len (map snd col)) as TL. unfold zlen in TL at 2. rewrite map_length in TL. fold (zlen col) in TL.
  set (dig := fun t => match text_digit t with Some d => d | None => 0 end).
  eexists. split.
  - unfold first_digit_cnt_text. rewrite fold_texts. apply (count_all text_digit dig); [|lia].
    intros t Ht. destruct (H' t Ht) as (q & Dq). destruct (text_digit_ok t q Dq) as (d & E & R & _). unfold dig. rewrite E. auto.
  - split; [reflexivity|]. intros d p D P.
    assert (E : zlen (filter p (texts (map snd col))) = zlen (filter (fun t => dig t =? d) (texts (map snd col)))).
    { f_equal. apply filter_ext_in. intros t Ht. destruct (H' t Ht) as (q & Dq). apply eq_true_iff_eq. rewrite (P t q Dq), Z.eqb_eq.
      destruct (text_digit_ok t q Dq) as (e & E & R & C). unfold dig. rewrite E. split.
      - intros Lq. destruct C as [[Zq _]|C]; [now apply leading_q_pos in Lq|]. exact (leading_q_unique _ _ _ C Lq).
      - intros ->. destruct C as [[_ ->]|C]; [lia|exact C]. }
    rewrite E. assert (C : d = 1 \/ d = 2 \/ d = 3 \/ d = 4 \/ d = 5 \/ d = 6 \/ d = 7 \/ d = 8 \/ d = 9) by lia.
    repeat destruct C as [->|C]; try reflexivity. subst d. reflexivity.
Qed.

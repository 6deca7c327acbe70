(** Proofs about the distance and similarity expressions. *)
From Coq Require Import String Bool List Arith ZArith Reals Lra Lia Classical_Prop.
From Coq Require ClassicalDedekindReals.
From Verif Require Import KnnExprModel StrSpec StrModel StrProofs StrPropsLemmas EditSpec EditModel EditProofs.
Import ListNotations.
Open Scope nat_scope.
Open Scope list_scope.

Section Z.
Context (z : rapidfuzz).
Hypothesis OK : rapidfuzz_ok z.
Lemma lev_metric : metric (lev z).
Proof. apply (chain_metric edit edit_sym). intros a b. apply OK. Qed.
Lemma dlev_metric : metric (dlev z).
Proof. apply (chain_metric edit_or_swap swap_sym). intros a b. apply OK. Qed.
Lemma lev_lal a b : lal (lev z a b) a b.
Proof. destruct (OK a b) as ([S L] & _). destruct (steps_lal _ _ _ S) as (k & K & A). assert (lev z a b <= k) by (apply L, lal_steps, A). now replace (lev z a b) with k by lia. Qed.
Lemma lev_le n a b : lal n a b -> lev z a b <= n.
Proof. intro H. destruct (OK a b) as ([S L] & _). apply L, lal_steps, H. Qed.
Lemma lev_max a b : lev z a b <= max_len a b.
Proof. apply lev_le, lal_max. Qed.
Lemma osa_le_lev a b : osa z a b <= lev z a b.
Proof. destruct (OK a b) as (_ & _ & [S L] & _). apply L, lal_aligned, lev_lal. Qed.
Lemma dlev_le_osa a b : dlev z a b <= osa z a b.
Proof. destruct (OK a b) as (_ & [S L] & [S' L'] & _). apply L, aligned_steps, S'. Qed.
Lemma dlev_len a b : length a <= dlev z a b + length b /\ length b <= dlev z a b + length a.
Proof. destruct (OK a b) as (_ & [S L] & _). now apply steps_len. Qed.
Lemma osa_facts : (forall a b, osa z a b = 0 <-> a = b) /\ forall a b, osa z a b = osa z b a.
Proof.
  split; intros a b.
  - destruct (OK a b) as (_ & _ & [S L] & _). split; [intro E; now apply (aligned_zero _ _ _ S)|]. intros ->. 
    assert (osa z b b <= lev z b b) by apply osa_le_lev. assert (lev z b b = 0) by now apply lev_metric. lia.
  - destruct (OK a b) as (_ & _ & [S L] & _), (OK b a) as (_ & _ & [S' L'] & _). apply Nat.le_antisymm; [apply L|apply L']; now apply aligned_sym.
Qed.
Lemma lcs_le a b : lcs z a b <= length a /\ lcs z a b <= length b.
Proof. destruct (OK a b) as (_ & _ & _ & (s & A & B & <-) & _). split; now apply sub_len. Qed.
Lemma lcs_sym a b : lcs z a b = lcs z b a.
Proof.
  destruct (OK a b) as (_ & _ & _ & (s & A & B & E) & M), (OK b a) as (_ & _ & _ & (s' & A' & B' & E') & M').
  apply Nat.le_antisymm; [rewrite <- E; auto|rewrite <- E'; auto].
Qed.
Lemma lcs_self a : lcs z a a = length a.
Proof. destruct (OK a a) as (_ & _ & _ & _ & M). assert (H := M a (sub_refl a) (sub_refl a)). destruct (lcs_le a a). lia. Qed.
Lemma lcs_full a b : length a <= lcs z a b -> length b <= lcs z a b -> a = b.
Proof.
  destruct (OK a b) as (_ & _ & _ & (s & A & B & E) & _). rewrite <- E. intros HA HB. rewrite <- (sub_full s a A HA). now apply sub_full.
Qed.
Lemma lcs_lev a b : lcs_dist z a b <= lev z a b.
Proof.
  destruct (lal_common _ _ _ (lev_lal a b)) as (s & A & B & L). destruct (OK a b) as (_ & _ & _ & _ & M). specialize (M s A B). unfold lcs_dist, max_len. lia.
Qed.
Lemma lev_indel a b : lev z a b <= indel z a b.
Proof.
  destruct (OK a b) as (_ & _ & _ & (s & A & B & E) & _). destruct (lal_comp _ _ _ (proj2 (sub_lal s a A)) _ _ (proj1 (sub_lal s b B))) as (k & K & L).
  apply lev_le in L. apply sub_len in A. apply sub_len in B. unfold indel. lia.
Qed.
(** Hamming. *)
Lemma ham_none a : forall b, hamming a b = None <-> length a <> length b.
Proof.
  induction a as [|x a IH]; intros [|y b]; cbn [hamming length]; try (split; [discriminate|lia]); try (split; [lia|discriminate]); try (split; [lia|reflexivity]).
  specialize (IH b). destruct (hamming a b); cbn [option_map]; split; try discriminate; intro H.
  - destruct IH as [_ IH]. assert (length a <> length b) by lia. apply IH in H0. discriminate.
  - destruct IH as [IH _]. specialize (IH eq_refl). lia.
  - reflexivity.
Qed.
Lemma ham_pad a : forall b n, hamming a b = Some n -> hamming_padded a b = n.
Proof.
  induction a as [|x a IH]; intros [|y b] n; cbn [hamming hamming_padded length]; try discriminate; [congruence|].
  destruct (hamming a b) as [k|] eqn:E; cbn [option_map]; [|discriminate]. rewrite (IH _ _ E). intro H. injection H as <-. now destruct (Z.eqb x y).
Qed.
Lemma pad_len b : forall c, length c <= length b + hamming_padded b c /\ length b <= length c + hamming_padded b c /\ hamming_padded b c <= length b + length c.
Proof. induction b as [|y b IH]; intros [|x c]; cbn [hamming_padded length]; try lia. specialize (IH c). destruct (Z.eqb y x); lia. Qed.
Lemma pad_metric : metric hamming_padded.
Proof.
  split; [|split].
  - induction a as [|x a IH]; intros [|y b]; cbn [hamming_padded length]; try (split; [lia|discriminate]); [split; reflexivity|].
    destruct (Z.eqb_spec x y) as [->|N]; split; intro H; [f_equal; now apply IH|injection H as ->; apply IH; reflexivity|lia|injection H; intros; contradiction].
  - induction a as [|x a IH]; intros [|y b]; cbn [hamming_padded length]; try reflexivity. rewrite IH, Z.eqb_sym. reflexivity.
  - induction a as [|x a IH]; intros [|y b] [|w c]; cbn [hamming_padded length]; try lia.
    + assert (P := pad_len b c). destruct (Z.eqb y w); lia.
    + assert (P := pad_len a c). destruct (Z.eqb x w); lia.
    + assert (P := pad_len a b). destruct (Z.eqb x y); lia.
    + specialize (IH b c). destruct (Z.eqb_spec x y), (Z.eqb_spec y w), (Z.eqb_spec x w); subst; try lia; contradiction.
Qed.
Lemma pad_lal a : forall b, lal (hamming_padded a b) a b.
Proof.
  induction a as [|x a IH]; intro b.
  - assert (H := lal_max [] b). cbn [length Nat.max] in H. destruct b; exact H.
  - destruct b as [|y b]; [assert (H := lal_max (x :: a) []); exact H|]. cbn [hamming_padded]. destruct (Z.eqb_spec x y) as [->|]; constructor; apply IH.
Qed.
(** Similarities. *)
Lemma norm_range d m : d <= m -> (0 <= norm_sim d m <= 1)%R.
Proof.
  intro H. unfold norm_sim. destruct (Nat.eqb_spec m 0); [lra|]. assert (0 < INR m)%R by (apply (lt_INR 0); lia). apply le_INR in H. assert (P := pos_INR d).
  assert (0 <= INR d / INR m <= 1)%R; [|lra]. split; [unfold Rdiv; apply Rmult_le_pos; [lra|apply Rlt_le, Rinv_0_lt_compat; lra]|]. apply Rmult_le_reg_r with (INR m); [lra|]. unfold Rdiv. rewrite Rmult_assoc, Rinv_l; lra.
Qed.
Lemma norm_one d m : norm_sim d m = 1%R <-> m = 0 \/ d = 0.
Proof.
  unfold norm_sim. destruct (Nat.eqb_spec m 0) as [->|N]; [tauto|]. assert (0 < INR m)%R by (apply (lt_INR 0); lia). split.
  - intro E. right. apply INR_eq. cbn [INR]. assert (Q : (INR d / INR m = 0)%R) by lra. apply (f_equal (fun t => t * INR m)%R) in Q. unfold Rdiv in Q. rewrite Rmult_assoc, Rinv_l in Q; lra.
  - intros [->| ->]; [contradiction|]. cbn [INR]. unfold Rdiv. ring.
Qed.
Lemma max_sym a b : max_len a b = max_len b a.
Proof. apply Nat.max_comm. Qed.
Lemma max_zero a b : max_len a b = 0 -> a = b.
Proof. unfold max_len. destruct a, b; cbn [length]; try lia. reflexivity. Qed.
Lemma dist_similarity d : (forall a b, d a b <= max_len a b) -> (forall a b, d a b = 0 <-> a = b) -> (forall a b, d a b = d b a) -> similarity (fun a b => norm_sim (d a b) (max_len a b)).
Proof.
  intros M Z S. split; [intros; apply norm_range, M|split].
  - intros a b. rewrite norm_one, Z. split; [intros [H|H]; [now apply max_zero|exact H]|tauto].
  - intros a b. now rewrite S, max_sym.
Qed.
Lemma lev_similarity : similarity (lev_sim z).
Proof. apply dist_similarity; [apply lev_max|apply lev_metric|apply lev_metric]. Qed.
Lemma dlev_similarity : similarity (dlev_sim z).
Proof. apply dist_similarity; [|apply dlev_metric|apply dlev_metric]. intros a b. assert (A := dlev_le_osa a b). assert (B := osa_le_lev a b). assert (C := lev_max a b). lia. Qed.
Lemma osa_similarity : similarity (osa_sim z).
Proof. apply dist_similarity; [|apply osa_facts|apply osa_facts]. intros a b. assert (B := osa_le_lev a b). assert (C := lev_max a b). lia. Qed.
Lemma lcs_similarity : similarity (lcs_sim z).
Proof.
  apply dist_similarity.
  - intros a b. unfold lcs_dist. lia.
  - intros a b. unfold lcs_dist, max_len. split; [intro H; apply lcs_full; destruct (lcs_le a b); lia|]. intros ->. rewrite lcs_self. lia.
  - intros a b. unfold lcs_dist. now rewrite lcs_sym, max_sym.
Qed.
Lemma fuzz_similarity : similarity (fuzz_ratio z).
Proof.
  split; [intros; apply norm_range; unfold indel; lia|split].
  - intros a b. unfold fuzz_ratio. rewrite norm_one. unfold indel. destruct (lcs_le a b). split.
    + intros [H1|H1]; [destruct a, b; cbn [length] in H1; try lia; reflexivity|]. apply lcs_full; lia.
    + intros ->. rewrite lcs_self. right. lia.
  - intros a b. unfold fuzz_ratio, indel. now rewrite lcs_sym, (Nat.add_comm (length a)).
Qed.
End Z.
Lemma lcs_sim_ratio z (OK : rapidfuzz_ok z) a b : (a <> [] \/ b <> []) ->
  lcs_sim z a b = (INR (lcs z a b) / INR (max_len a b))%R /\ fuzz_ratio z a b = (2 * INR (lcs z a b) / INR (length a + length b))%R.
Proof.
  intro N. destruct (lcs_le z OK a b) as [A B]. assert (P : 0 < max_len a b /\ 0 < length a + length b) by (unfold max_len; destruct a, b; cbn [length]; try lia; destruct N; congruence).
  destruct P as [P1 P2]. unfold lcs_sim, fuzz_ratio, norm_sim, lcs_dist, indel. destruct (Nat.eqb_spec (max_len a b) 0); [lia|]. destruct (Nat.eqb_spec (length a + length b) 0); [lia|].
  apply (lt_INR 0) in P1. assert (P2' := lt_INR 0 _ P2). cbn [INR] in *. split.
  - rewrite minus_INR by (unfold max_len; lia). field. lra.
  - rewrite minus_INR by lia. rewrite mult_INR. cbn [INR]. field. lra.
Qed.
(** Optimal string alignment is no metric. *)
Lemma osa_ca_abc z (OK : rapidfuzz_ok z) : osa z [2;0]%Z [0;2]%Z = 1 /\ osa z [0;2]%Z [0;1;2]%Z = 1 /\ osa z [2;0]%Z [0;1;2]%Z = 3.
Proof.
  assert (U : forall a b n, aligned n a b -> (forall m, aligned m a b -> n <= m) -> osa z a b = n).
  { intros a b n H L. destruct (OK a b) as (_ & _ & [S L'] & _). apply Nat.le_antisymm; auto. }
  split; [|split]; apply U.
  - apply al_swap, al_nil.
  - intros [|m] H; [|lia]. apply aligned_zero in H; [discriminate|reflexivity].
  - apply al_keep, al_ins, al_keep, al_nil.
  - intros [|m] H; [|lia]. apply aligned_zero in H; [discriminate|reflexivity].
  - apply al_sub, al_sub, al_ins, al_nil.
  - intros m H. repeat match goal with H : aligned _ (_ :: _) _ |- _ => inversion H; clear H; subst | H : aligned _ _ (_ :: _) |- _ => inversion H; clear H; subst end; lia.
Qed.

(** rapidfuzz is possible. *)
Lemma informative (P : Prop) : {P} + {~ P}.
Proof. destruct (ClassicalDedekindReals.sig_not_dec P) as [H|H]; [left; now apply NNPP|right; exact H]. Qed.
Lemma least_exists (P : nat -> Prop) m : P m -> {n | least_of P n}.
Proof.
  revert P. induction m as [|m IH]; intros P H.
  - exists 0. split; [exact H|]. intros; lia.
  - destruct (informative (P 0)) as [H0|H0]; [exists 0; split; [exact H0|intros; lia]|].
    destruct (IH (fun n => P (S n)) H) as (n & Q & L). exists (S n). split; [exact Q|]. intros [|k] K; [contradiction|]. apply L in K. lia.
Qed.
Definition some_lev a b := least_exists (fun n => steps edit n a b) _ (lal_steps _ _ _ (lal_max a b)).
Definition some_dlev a b := least_exists (fun n => steps edit_or_swap n a b) _ (steps_edit_swap _ _ _ (lal_steps _ _ _ (lal_max a b))).
Definition some_osa a b := least_exists (fun n => aligned n a b) _ (lal_aligned _ _ _ (lal_max a b)).
Lemma lcs_bound a b : forall s, subword s a -> subword s b -> length s <= length a.
Proof. intros s A _. now apply sub_len. Qed.
Definition some_lcs a b := least_exists (fun n => forall s, subword s a -> subword s b -> length s <= n) _ (lcs_bound a b).
Definition some_rapidfuzz : rapidfuzz := {| lev := fun a b => proj1_sig (some_lev a b); dlev := fun a b => proj1_sig (some_dlev a b);
  osa := fun a b => proj1_sig (some_osa a b); lcs := fun a b => proj1_sig (some_lcs a b) |}.
Lemma some_rapidfuzz_ok : rapidfuzz_ok some_rapidfuzz.
Proof.
  intros a b. cbn. split; [exact (proj2_sig (some_lev a b))|]. split; [exact (proj2_sig (some_dlev a b))|]. split; [exact (proj2_sig (some_osa a b))|].
  destruct (some_lcs a b) as (n & H & L). cbn. split; [|exact H]. destruct n as [|n]; [exists []; repeat split; apply sub_nil|].
  apply NNPP. intro N. assert (S n <= n); [|lia]. apply L. intros s A B. destruct (Nat.le_gt_cases (length s) n) as [|G]; [assumption|]. exfalso. apply N. exists s. repeat split; auto.
  specialize (H s A B). lia.
Qed.

(** Proofs about the filters and similar_to_vocab. *)
From Coq Require Import String Bool List Arith ZArith Reals Lra Lia.
From Verif Require Import KnnExprModel PyKdModel KnnExprSpec StrSpec StrModel StrProofs StrPropsLemmas EditSpec EditModel EditProofs EditProofs2.
Import ListNotations.
Open Scope nat_scope.
Open Scope list_scope.

Lemma within_lev_iff z bound a b : within_lev z bound a b = Some (lev z a b <=? bound).
Proof. unfold within_lev, with_cutoff. now destruct (lev z a b <=? bound). Qed.
Lemma within_ham_iff bound a b : within_ham bound a b = Some (match hamming a b with Some d => d <=? bound | None => false end).
Proof. unfold within_ham, with_cutoff. destruct (hamming a b) as [d|]; [now destruct (d <=? bound)|reflexivity]. Qed.
Lemma filter_lev_rows z bound c other par : (0 <= bound <= u32_max)%Z -> par_ok par ->
  (length (cells other) = length (cells c) /\ length (cells other) <> 1 \/ exists r, cells other = [Some r]) ->
  exists out, filter_by_levenshtein z bound c other par = Some (Ok out) /\ length out = length (cells c) /\
    forall i a, nth_error (cells c) i = Some a ->
      exists b, (nth_error (cells other) i = Some b \/ cells other = [b]) /\
        nth_error out i = Some (match a, b with Some x, Some y => Some (Z.of_nat (lev z x y) <=? bound)%Z | _, _ => None end).
Proof.
  intros B P S. unfold filter_by_levenshtein. rewrite Z.abs_eq by lia. destruct (Z.leb_spec bound u32_max); [|lia].
  destruct (pairwise_rows (within_lev z (Z.abs_nat bound)) c other par P S) as (out & E & L & R). exists out. split; [now rewrite E|]. split; [exact L|].
  intros i a I. destruct (R i a I) as (b & D & N). exists b. split; [exact D|]. rewrite N. destruct a as [x|], b as [y|]; try reflexivity. rewrite within_lev_iff. do 2 f_equal.
  apply eq_true_iff_eq. rewrite Nat.leb_le, Z.leb_le. lia.
Qed.
Lemma filter_ham_rows bound pad c other par : (0 <= bound <= u32_max)%Z -> par_ok par ->
  (length (cells other) = length (cells c) /\ length (cells other) <> 1 \/ exists r, cells other = [Some r]) ->
  exists out, filter_by_hamming bound pad c other par = Some (Ok out) /\ length out = length (cells c) /\
    forall i a, nth_error (cells c) i = Some a ->
      exists b, (nth_error (cells other) i = Some b \/ cells other = [b]) /\
        nth_error out i = Some (match a, b with Some x, Some y => Some (match hamming x y with Some d => (Z.of_nat d <=? bound)%Z | None => false end) | _, _ => None end).
Proof.
  intros B P S. unfold filter_by_hamming. destruct (Z.leb_spec 0 bound); [|lia]. destruct (Z.leb_spec bound u32_max); [|lia]. cbn [andb].
  destruct (pairwise_rows (within_ham (Z.to_nat bound)) c other par P S) as (out & E & L & R). exists out. split; [now rewrite E|]. split; [exact L|].
  intros i a I. destruct (R i a I) as (b & D & N). exists b. split; [exact D|]. rewrite N. destruct a as [x|], b as [y|]; try reflexivity. rewrite within_ham_iff. do 2 f_equal.
  destruct (hamming x y) as [d|]; [|reflexivity]. apply eq_true_iff_eq. rewrite Nat.leb_le, Z.leb_le. lia.
Qed.
Lemma filter_lev_negative z bound c other par : filter_by_levenshtein z (- bound) c other par = filter_by_levenshtein z bound c other par.
Proof. unfold filter_by_levenshtein. rewrite Z.abs_opp. now replace (Z.abs_nat (- bound)) with (Z.abs_nat bound) by lia. Qed.

Section Vocab.
Context (sim : chars -> chars -> R) (vocab : list chars) (thr : R).
Lemma geb_iff x t : geb x t = true <-> (t <= x)%R.
Proof. unfold geb. destruct (Rle_dec t x); split; (congruence || contradiction || auto). Qed.
Lemma kany_some (p : chars -> bool) l : kany (map (fun w => Some (p w)) l) = Some (existsb p l).
Proof.
  unfold kany. induction l as [|w l IH]; [reflexivity|]. cbn [map existsb]. destruct (p w); [reflexivity|]. cbn [orb]. exact IH.
Qed.
Lemma kall_some (p : chars -> bool) l : kall (map (fun w => Some (p w)) l) = Some (forallb p l).
Proof.
  unfold kall. induction l as [|w l IH]; [reflexivity|]. cbn [map existsb forallb]. destruct (p w); [|reflexivity]. cbn [orb andb]. exact IH.
Qed.
Lemma any_row s : row_similar sim vocab thr Any (Some s) = Some true <-> exists w, In w vocab /\ (thr <= sim s w)%R.
Proof.
  unfold row_similar. rewrite map_map. cbn [option_map]. rewrite kany_some. split.
  - intro H. injection H as H. apply existsb_exists in H. destruct H as (w & I & G). exists w. split; [exact I|now apply geb_iff].
  - intros (w & I & G). f_equal. apply existsb_exists. exists w. split; [exact I|now apply geb_iff].
Qed.
Lemma all_row s : row_similar sim vocab thr All (Some s) = Some true <-> forall w, In w vocab -> (thr <= sim s w)%R.
Proof.
  unfold row_similar. rewrite map_map. cbn [option_map]. rewrite kall_some. split.
  - intro H. injection H as H. rewrite forallb_forall in H. intros w I. apply geb_iff. auto.
  - intro H. f_equal. apply forallb_forall. intros w I. apply geb_iff. auto.
Qed.
Lemma sum_row s : sum_horizontal (map (fun w => option_map (fun s => sim s w) (Some s)) vocab) = total (map (sim s) vocab).
Proof. induction vocab as [|w l IH]; [reflexivity|]. cbn [map total]. rewrite <- IH. reflexivity. Qed.
Lemma avg_row s : row_similar sim vocab thr Avg (Some s) = Some true <-> (thr <= total (map (sim s) vocab) / INR (length vocab))%R.
Proof. unfold row_similar. rewrite sum_row, <- geb_iff. split; congruence. Qed.
Lemma never_null s st : exists b, row_similar sim vocab thr st (Some s) = Some b.
Proof.
  destruct st; unfold row_similar; [| |eexists; reflexivity]; rewrite map_map; cbn [option_map]; [rewrite kall_some|rewrite kany_some]; eexists; reflexivity.
Qed.
Lemma total_bounds f l : (forall w : chars, In w l -> (thr <= f w)%R) -> (INR (length l) * thr <= total (map f l))%R.
Proof.
  induction l as [|w l IH]; intro H; [cbn; lra|]. cbn [map total length]. rewrite S_INR. assert (thr <= f w)%R by (apply H; now left). assert (INR (length l) * thr <= total (map f l))%R by (apply IH; intros; apply H; now right). lra.
Qed.
Lemma total_below f l : l <> [] -> (forall w : chars, In w l -> (f w < thr)%R) -> (total (map f l) < INR (length l) * thr)%R.
Proof.
  induction l as [|w l IH]; intros N H; [contradiction|]. cbn [map total]. change (length (w :: l)) with (S (length l)). rewrite S_INR. assert (f w < thr)%R by (apply H; now left).
  destruct l as [|v l]; [cbn; lra|]. assert (total (map f (v :: l)) < INR (length (v :: l)) * thr)%R by (apply IH; [discriminate|intros; apply H; now right]). lra.
Qed.
Lemma all_avg_any s : vocab <> [] ->
  (row_similar sim vocab thr All (Some s) = Some true -> row_similar sim vocab thr Avg (Some s) = Some true) /\
  (row_similar sim vocab thr Avg (Some s) = Some true -> row_similar sim vocab thr Any (Some s) = Some true).
Proof.
  intro N. assert (P : (0 < INR (length vocab))%R) by (apply (lt_INR 0); destruct vocab; [contradiction|cbn; lia]). rewrite all_row, avg_row, any_row. split.
  - intro H. apply total_bounds in H. apply Rmult_le_reg_r with (INR (length vocab)); [exact P|]. unfold Rdiv. rewrite Rmult_assoc, Rinv_l; lra.
  - intro H. destruct (existsb (fun w => geb (sim s w) thr) vocab) eqn:E.
    + apply existsb_exists in E. destruct E as (w & I & G). exists w. split; [exact I|now apply geb_iff].
    + exfalso. assert (B : forall w, In w vocab -> (sim s w < thr)%R).
      { intros w I. apply Rnot_le_lt. intro G. assert (existsb (fun w => geb (sim s w) thr) vocab = true); [|congruence]. apply existsb_exists. exists w. split; [exact I|now apply geb_iff]. }
      apply total_below in B; [|exact N]. apply Rmult_le_compat_r with (r := INR (length vocab)) in H; [|lra]. unfold Rdiv in H. rewrite Rmult_assoc, Rinv_l in H; lra.
Qed.
Lemma null_any_all : vocab <> [] -> row_similar sim vocab thr Any None = None /\ row_similar sim vocab thr All None = None.
Proof.
  intro N. unfold row_similar, kall, kany. rewrite !map_map. cbn [option_map].
  assert (X : forall l : list chars, existsb (fun o => match o with Some true => true | _ => false end) (map (fun _ => None) l) = false) by (induction l; auto).
  assert (Y : forall l : list chars, existsb (fun o => match o with Some false => true | _ => false end) (map (fun _ => None) l) = false) by (induction l; auto).
  rewrite X, Y. destruct vocab; [contradiction|]. split; reflexivity.
Qed.
Lemma null_avg : row_similar sim vocab thr Avg None = Some (geb 0 thr).
Proof.
  unfold row_similar. cbn [option_map]. replace (sum_horizontal (map (fun _ => None) vocab)) with 0%R; [unfold Rdiv; now rewrite Rmult_0_l|].
  induction vocab as [|w l IH]; [reflexivity|]. cbn [map]. change (0 = 0 + sum_horizontal (map (fun _ : chars => None) l))%R. rewrite <- IH. ring.
Qed.
End Vocab.

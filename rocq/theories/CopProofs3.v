From Coq Require Import Bool List Arith NArith ZArith Lia Permutation Sorted Reals Lra.
From Flocq Require Import Core IEEE754.BinarySingleNaN.
From Verif Require Import Num F64 F64Facts KdModel KdDemo KdSpec KdProofs PyKdModel PyKdSpec KnnExprModel KnnExprSpec KnnExprProofs KnnExprSem
  MetricSpec DigammaModel DigammaSpec KnnEntModel KnnEntSpec KnnEntProofs KnnEntProofs2 KnnEntProofs3 KnnEntProofs4 CopModel CopSpec CopProofs CopProofs2.
Import ListNotations.
Open Scope nat_scope.

(** Rows at the same distances have the same estimate. *)
Lemma filter_ext_in' {X} (g h : X -> bool) l : (forall x, In x l -> g x = h x) -> filter g l = filter h l.
Proof. intros H. induction l as [|a l IH]; [reflexivity|]. cbn. rewrite (H a (or_introl eq_refl)), IH; [reflexivity|]. intros; apply H. now right. Qed.
Lemma kl_iso m rows rows' dim k tot g v : length rows = length rows' ->
  (forall i j, i < length rows -> j < length rows -> rdist m (nth i rows []) (nth j rows []) = rdist m (nth i rows' []) (nth j rows' [])) ->
  kl_sum m rows dim k tot g v -> kl_sum m rows' dim k tot g v.
Proof.
  intros L D (rho & A & ->). exists rho. rewrite <- L. split; [|reflexivity]. intros i Hi. destruct (A i Hi) as [P K]. split; [exact P|].
  assert (O : forall P, others m rows' i P = others m rows i P).
  { intros Q. unfold others. rewrite <- L. f_equal. apply filter_ext_in'. intros j Hj. apply in_seq in Hj. rewrite (D j i) by lia. reflexivity. }
  unfold kth_nearest. rewrite !O. exact K.
Qed.

(** Swapping the first two coordinates. *)
Definition sw {T} (l : list T) : list T := match l with a :: b :: t => b :: a :: t | _ => l end.
Lemma bplus_comm (a b : f64) : Bplus mode_NE a b = Bplus mode_NE b a.
Proof.
  destruct a as [sa|sa| |sa ma ea Ha], b as [sb|sb| |sb mb eb Hb]; try reflexivity; try (destruct sa, sb; reflexivity).
  unfold Bplus. rewrite (Z.min_comm eb ea). unfold Fplus_naive. now rewrite Z.add_comm.
Qed.
Lemma zero_add3 (a b : f64) : Bplus mode_NE (Bplus mode_NE (B754_zero false) a) b = Bplus mode_NE (Bplus mode_NE (B754_zero false) b) a.
Proof.
  destruct a as [[]|[]| |sa ma ea Ha], b as [[]|[]| |sb mb eb Hb]; try reflexivity; try (destruct sb; reflexivity).
  exact (bplus_comm (B754_finite sa ma ea Ha) (B754_finite sb mb eb Hb)).
Qed.
Lemma sw_dist p q : 2 <= length p -> 2 <= length q -> spec_dist N ML2 (sw p) (sw q) = spec_dist N ML2 p q.
Proof.
  intros P Q. destruct p as [|a [|b p]]; cbn [length] in P; try lia. destruct q as [|c [|d q]]; cbn [length] in Q; try lia.
  cbn [sw spec_dist]. unfold sum_of. cbn [combine fold_left fst snd]. f_equal. f_equal. apply zero_add3.
Qed.
Lemma sw_len {T} (l : list T) : length (sw l) = length l.
Proof. now destruct l as [|a [|b l]]. Qed.
Lemma finite_sw p : finite_row N (sw p) = finite_row N p.
Proof. destruct p as [|a [|b p]]; try reflexivity. cbn [sw finite_row forallb]. destruct (nfinite N a), (nfinite N b); reflexivity. Qed.
Lemma filter_map_sw rows : finite_rows (map sw rows) = map sw (finite_rows rows).
Proof.
  unfold finite_rows. induction rows as [|p l IH]; [reflexivity|]. cbn [map filter]. rewrite finite_sw. destruct (finite_row N p); cbn [map]; now rewrite IH.
Qed.

Section Value.
Context {X : Type} (leb : X -> X -> bool).
Hypothesis TO : total_order leb.
Notation shares := (map (fun c => [rank_share leb c])).

Lemma share_cell c i : i < length c -> (Z.of_nat (length c) <= 2 ^ 50)%Z ->
  match nth i c None with
  | Some x => cell N i [rank_share leb c] = ndiv N (rank_avg leb c x) (fi (Z.of_nat (length c))) /\ In (Some x) c
  | None => cell N i [rank_share leb c] = nnanv N
  end.
Proof.
  intros Hi Hn. unfold cell, cells. cbn [concat]. rewrite app_nil_r. unfold rank_share. rewrite nth_opt_map.
  destruct (nth i c None) as [x|] eqn:E; cbn [option_map]; [|reflexivity]. split; [reflexivity|]. rewrite <- E. now apply nth_In.
Qed.
Section Table.
Variables (cols : list (list (option X))) (h : nat).
Hypothesis NE : cols <> [].
Hypothesis LC : Forall (fun c => length c = h) cols.
Hypothesis Hh : (Z.of_nat h <= 2 ^ 50)%Z.
Hypothesis Hd : (Z.of_nat (length cols) <= 2 ^ 50)%Z.

Lemma shares_table : table N h (shares cols).
Proof.
  split; [destruct cols; [congruence|discriminate]|]. apply Forall_map. eapply Forall_impl; [|exact LC]. intros c Hc. unfold cells. cbn [concat].
  rewrite app_nil_r. unfold rank_share. now rewrite map_length.
Qed.
Lemma point_ok i : i < h -> rank_point leb cols i (row_at N (shares cols) i).
Proof.
  intros Hi. split; [now rewrite row_at_length, map_length|]. intros j c Hj.
  assert (Hc : In c cols) by (eapply nth_error_In; exact Hj). rewrite Forall_forall in LC. specialize (LC c Hc).
  assert (E : nth j (row_at N (shares cols) i) (nzero f64_ops) = cell N i [rank_share leb c]).
  { apply nth_error_nth. unfold row_at. rewrite !nth_error_map, Hj. reflexivity. }
  rewrite E. pose proof (share_cell c i ltac:(lia) ltac:(lia)) as S. destruct (nth i c None) as [x|]; [|exact S]. destruct S as [-> Hx].
  apply (share_value leb c x TO Hx). lia.
Qed.
Lemma finite_complete i : i < h -> finite_row N (row_at N (shares cols) i) = complete cols i.
Proof.
  intros Hi. unfold finite_row, row_at, complete. clear NE Hd. induction cols as [|c l IH]; [reflexivity|]. inversion LC as [|? ? L1 L2]; subst. cbn [map forallb].
  rewrite IH by exact L2. f_equal. pose proof (share_cell c i ltac:(lia) ltac:(lia)) as S. destruct (nth i c None) as [x|]; [|rewrite S; reflexivity].
  destruct S as [-> Hx]. apply (proj1 (proj1 (share_value leb c x TO Hx ltac:(lia)))).
Qed.
Lemma complete_count : length (finite_rows (rows_of h (shares cols))) = length (filter (complete cols) (seq 0 h)).
Proof.
  unfold finite_rows, rows_of. rewrite <- (filter_pair (row_at N (shares cols)) (finite_row N)). f_equal. apply filter_ext_in'. intros i Hi. apply in_seq in Hi.
  apply finite_complete. lia.
Qed.
Lemma shares_moderate : moderate ML2 (finite_rows (rows_of h (shares cols))).
Proof.
  apply (unit_moderate _ (length cols) Hd). apply Forall_forall. intros p Hp. apply filter_In in Hp. destruct Hp as [Hp F].
  apply in_map_iff in Hp. destruct Hp as (i & <- & Hi). apply in_seq in Hi. split; [now rewrite row_at_length, map_length|].
  apply Forall_forall. intros x Hx. unfold finite_row in F. rewrite forallb_forall in F. specialize (F x Hx). split; [exact F|].
  unfold row_at in Hx. rewrite map_map in Hx. apply in_map_iff in Hx. destruct Hx as (c & <- & Hc).
  rewrite Forall_forall in LC. specialize (LC c Hc). pose proof (share_cell c i ltac:(lia) ltac:(lia)) as S.
  destruct (nth i c None) as [x|]; [|rewrite S in F; discriminate F]. destruct S as [-> Hx].
  destruct (share_value leb c x TO Hx ltac:(lia)) as [[_ ->] B]. exact B.
Qed.
Definition run_ok (r : run) : Prop := interleaving (all_writes N (length cols) 0 (shares cols)) (fst r) /\ par_ok (snd r).
Lemma copula_kl lib gamma k r : lib_ok N unit lib -> gamma_half_ok gamma -> run_ok r -> 1 <= k -> k < length (filter (complete cols) (seq 0 h)) ->
  exists v, query_copula_entropy leb gamma lib cols (Z.of_nat k) r = Ok (xneg v) /\
    kl_sum ML2 (finite_rows (rows_of h (shares cols))) (length cols) k h (digamma (INR h) - digamma (INR k)) v.
Proof.
  intros LO GO [IL PO] K1 K2. rewrite <- complete_count in K2.
  destruct (estimate_ok lib gamma LO GO Dl2 h (shares cols) (fst r) k (snd r) (or_introl eq_refl) shares_table) as (v & E & K); try assumption.
  - now rewrite map_length.
  - exact shares_moderate.
  - exists v. unfold query_copula_entropy. rewrite E. split; [reflexivity|]. rewrite map_length in K. exact K.
Qed.
Theorem copula_value lib gamma k r : lib_ok N unit lib -> gamma_half_ok gamma -> run_ok r -> 1 <= k -> k < length (filter (complete cols) (seq 0 h)) ->
  exists v g pts, query_copula_entropy leb gamma lib cols (Z.of_nat k) r = Ok (xneg v) /\
    (0 <= g - harmonic k h <= 1 / 100000000000000)%R /\ (h <= 12 -> g = harmonic k h) /\
    length pts = h /\ (forall i, i < h -> rank_point leb cols i (nth i pts [])) /\
    kl_sum ML2 (finite_rows pts) (length cols) k h g v.
Proof.
  intros LO GO RO K1 K2. destruct (copula_kl lib gamma k r LO GO RO K1 K2) as (v & E & K).
  assert (Kh : k <= h) by (pose proof (filter_short (complete cols) (seq 0 h)) as FS; rewrite seq_length in FS; lia).
  exists v, (digamma (INR h) - digamma (INR k))%R, (rows_of h (shares cols)). split; [exact E|].
  destruct (harm h k _ (conj K1 Kh) eq_refl) as [A B]. split; [exact A|]. split; [exact B|].
  split; [unfold rows_of; now rewrite map_length, seq_length|]. split; [|exact K].
  intros i Hi. assert (Ei : nth i (rows_of h (shares cols)) [] = row_at N (shares cols) i).
  { apply nth_error_nth. unfold rows_of. rewrite nth_error_map, (seq_nth' 0 h i Hi). reflexivity. }
  rewrite Ei. now apply point_ok.
Qed.
Theorem copula_few lib gamma k r : run_ok r -> 1 <= k -> h <= k -> query_copula_entropy leb gamma lib cols (Z.of_nat k) r = Ok NaN.
Proof.
  intros [IL PO] K1 K2. unfold query_copula_entropy. rewrite (few_rows lib gamma Dl2 h (shares cols) (fst r) k (snd r)); [reflexivity|now left|exact shares_table| |exact K1|exact K2].
  now rewrite map_length.
Qed.
End Table.

Lemma rows_sw x y z h : rows_of h (shares [y; x; z]) = map sw (rows_of h (shares [x; y; z])).
Proof. unfold rows_of. rewrite map_map. reflexivity. Qed.
Lemma complete_pair (x y z : list (option X)) h : length (filter (complete [x; y; z]) (seq 0 h)) <= length (filter (complete [y; z]) (seq 0 h)) /\
  length (filter (complete [x; y; z]) (seq 0 h)) <= length (filter (complete [x; z]) (seq 0 h)) /\
  length (filter (complete [y; x; z]) (seq 0 h)) = length (filter (complete [x; y; z]) (seq 0 h)).
Proof.
  split; [|split].
  - apply filter_mono. intros i. unfold complete. cbn [forallb]. rewrite !andb_true_r. destruct (nth i x None); [tauto|discriminate].
  - apply filter_mono. intros i. unfold complete. cbn [forallb]. rewrite !andb_true_r. destruct (nth i x None), (nth i y None), (nth i z None); cbn; intros H; try discriminate H; reflexivity.
  - f_equal. apply filter_ext_in'. intros i _. unfold complete. cbn [forallb]. destruct (nth i x None), (nth i y None); reflexivity.
Qed.
Theorem cond_sym lib gamma x y z h k r1 r2 r3 s1 s2 s3 : lib_ok N unit lib -> gamma_half_ok gamma ->
  length x = h -> length y = h -> length z = h -> (Z.of_nat h <= 2 ^ 50)%Z -> 1 <= k -> k < length (filter (complete [x; y; z]) (seq 0 h)) ->
  run_ok [x; y; z] r1 -> run_ok [y; z] r2 -> run_ok [x; z] r3 -> run_ok [y; x; z] s1 -> run_ok [x; z] s2 -> run_ok [y; z] s3 ->
  query_cond_indep leb gamma lib x y z (Z.of_nat k) r1 r2 r3 = query_cond_indep leb gamma lib y x z (Z.of_nat k) s1 s2 s3.
Proof.
  intros LO GO Lx Ly Lz Hh K1 K2 R1 R2 R3 S1 S2 S3. destruct (complete_pair x y z h) as (C1 & C2 & C3).
  assert (Hd : forall n, n <= 3 -> (Z.of_nat n <= 2 ^ 50)%Z) by (intros; lia).
  unfold query_cond_indep.
  assert (EQ : forall cols, cols <> [] -> Forall (fun c => length c = h) cols -> length cols <= 3 -> k < length (filter (complete cols) (seq 0 h)) ->
     forall r, run_ok cols r -> exists v, query_copula_entropy leb gamma lib cols (Z.of_nat k) r = Ok (xneg v) /\
       kl_sum ML2 (finite_rows (rows_of h (shares cols))) (length cols) k h (digamma (INR h) - digamma (INR k)) v).
  { intros cols NE F L K r RO. apply (copula_kl cols h NE F Hh (Hd _ L) lib gamma k r LO GO RO K1 K). }
  assert (F3 : Forall (fun c : list (option X) => length c = h) [x; y; z]) by (repeat apply Forall_cons; try assumption; apply Forall_nil).
  assert (F3' : Forall (fun c : list (option X) => length c = h) [y; x; z]) by (repeat apply Forall_cons; try assumption; apply Forall_nil).
  assert (F2 : Forall (fun c : list (option X) => length c = h) [y; z]) by (repeat apply Forall_cons; try assumption; apply Forall_nil).
  assert (F2' : Forall (fun c : list (option X) => length c = h) [x; z]) by (repeat apply Forall_cons; try assumption; apply Forall_nil).
  destruct (EQ [x; y; z] ltac:(discriminate) F3 ltac:(cbn; lia) K2 r1 R1) as (v1 & E1 & V1).
  destruct (EQ [y; x; z] ltac:(discriminate) F3' ltac:(cbn; lia) ltac:(lia) s1 S1) as (w1 & G1 & W1).
  destruct (EQ [y; z] ltac:(discriminate) F2 ltac:(cbn; lia) ltac:(lia) r2 R2) as (v2 & E2 & V2).
  destruct (EQ [x; z] ltac:(discriminate) F2' ltac:(cbn; lia) ltac:(lia) r3 R3) as (v3 & E3 & V3).
  destruct (EQ [x; z] ltac:(discriminate) F2' ltac:(cbn; lia) ltac:(lia) s2 S2) as (w2 & G2 & W2).
  destruct (EQ [y; z] ltac:(discriminate) F2 ltac:(cbn; lia) ltac:(lia) s3 S3) as (w3 & G3 & W3).
  rewrite E1, E2, E3, G1, G2, G3. cbn [lift2]. f_equal.
  rewrite (kl_unique _ _ _ _ _ _ _ _ W2 V3), (kl_unique _ _ _ _ _ _ _ _ W3 V2).
  assert (EV : w1 = v1).
  { rewrite rows_sw, filter_map_sw in W1. eapply kl_unique; [exact W1|]. revert V1. apply kl_iso; [now rewrite map_length|].
    intros i j Hi Hj. rewrite !(nth_indep (map sw _) [] (sw [])) by (rewrite map_length; lia). rewrite !map_nth. unfold rdist. rewrite sw_dist; [reflexivity| |].
    - assert (H : In (nth i (finite_rows (rows_of h (shares [x; y; z]))) []) (finite_rows (rows_of h (shares [x; y; z])))) by (now apply nth_In).
      apply filter_In in H. destruct H as [H _]. apply in_map_iff in H. destruct H as (u & <- & _). rewrite row_at_length. cbn. lia.
    - assert (H : In (nth j (finite_rows (rows_of h (shares [x; y; z]))) []) (finite_rows (rows_of h (shares [x; y; z])))) by (now apply nth_In).
      apply filter_In in H. destruct H as [H _]. apply in_map_iff in H. destruct H as (u & <- & _). rewrite row_at_length. cbn. lia. }
  rewrite EV. unfold xsub. rewrite <- !xplus_assoc. f_equal. apply xplus_comm.
Qed.
End Value.

Section Transfer.
Context {X : Type} (leb : X -> X -> bool) (gamma : R -> R) (lib : SplitLib N unit).
Theorem transfer_rows (x source : list (option X)) lag k r1 r2 r3 : (1 <= lag <= Z.of_nat (length x))%Z -> (Z.of_nat (length x) < 2 ^ 32)%Z ->
  length source = length x ->
  let n := length x - Z.to_nat lag in
  query_transfer_entropy leb gamma lib x source lag k r1 r2 r3 =
  query_cond_indep leb gamma lib (skipn (Z.to_nat lag) x) (firstn n source) (firstn n x) k r1 r2 r3.
Proof.
  intros HL HN LS n. unfold query_transfer_entropy. replace (lag <? 1)%Z with false by (symmetry; apply Z.ltb_ge; lia).
  rewrite Z.mod_small by lia. unfold slice_of. rewrite LS.
  replace (Z.to_nat (Z.min (Z.of_nat (length x) - lag) (Z.of_nat (length x)))) with n by lia.
  replace (Z.to_nat (Z.min 0 (Z.of_nat (length x)))) with 0 by lia.
  replace (Z.to_nat (Z.min lag (Z.of_nat (length x)))) with (Z.to_nat lag) by lia.
  cbn [skipn]. f_equal. apply firstn_all2. rewrite skipn_length. lia.
Qed.
Theorem transfer_lag (x source : list (option X)) lag k r1 r2 r3 : (lag < 1)%Z -> query_transfer_entropy leb gamma lib x source lag k r1 r2 r3 = Err.
Proof. intros H. unfold query_transfer_entropy. now apply Z.ltb_lt in H as ->. Qed.
Lemma uneven c d rest k r : length c <> length d -> forall v, query_copula_entropy leb gamma lib (c :: d :: rest) k r <> Ok v.
Proof.
  intros H v. unfold query_copula_entropy, query_knn_entropy. destruct (k <=? 0)%Z; [discriminate|]. unfold pl_knn_entropy, series_to_row_major_slice.
  cbn [map forallb]. unfold cells at 1 2 3. cbn [concat]. rewrite !app_nil_r. unfold rank_share at 1 2 3. rewrite !map_length.
  replace (length d =? length c) with false by (symmetry; apply Nat.eqb_neq; congruence). cbn [andb]. discriminate.
Qed.
Theorem transfer_long (x source : list (option X)) lag k r1 r2 r3 : (Z.of_nat (length x) < lag <= 2 ^ 32)%Z -> x <> [] -> length source = length x ->
  forall v, query_transfer_entropy leb gamma lib x source lag k r1 r2 r3 <> Ok v.
Proof.
  intros HL NE LS v. assert (Hx : 0 < length x) by (destruct x; [congruence|cbn; lia]). unfold query_transfer_entropy.
  replace (lag <? 1)%Z with false by (symmetry; apply Z.ltb_ge; lia).
  assert (E : ((Z.of_nat (length x) - lag) mod 2 ^ 32 = Z.of_nat (length x) - lag + 2 ^ 32)%Z).
  { rewrite <- (Z_mod_plus_full _ 1), Z.mul_1_l. apply Z.mod_small. lia. }
  rewrite E. clear E. unfold slice_of at 1 2 3. rewrite LS.
  replace (Z.to_nat (Z.min (Z.of_nat (length x) - lag + 2 ^ 32) (Z.of_nat (length x)))) with (length x) by lia.
  replace (Z.to_nat (Z.min 0 (Z.of_nat (length x)))) with 0 by lia.
  replace (Z.to_nat (Z.min lag (Z.of_nat (length x)))) with (length x) by lia.
  cbn [skipn]. rewrite skipn_all, firstn_nil, firstn_all. rewrite <- LS at 1. rewrite firstn_all.
  unfold query_cond_indep. pose proof (uneven [] source [x] k r1 ltac:(cbn; lia)) as U.
  destruct (query_copula_entropy leb gamma lib [[]; source; x] k r1) as [u| |]; [now specialize (U u)| |].
  - destruct (query_copula_entropy leb gamma lib [source; x] k r2), (query_copula_entropy leb gamma lib [[]; x] k r3); discriminate.
  - destruct (query_copula_entropy leb gamma lib [source; x] k r2), (query_copula_entropy leb gamma lib [[]; x] k r3); discriminate.
Qed.
Theorem transfer_future (x source source' : list (option X)) lag k r1 r2 r3 : (1 <= lag <= Z.of_nat (length x))%Z -> (Z.of_nat (length x) < 2 ^ 32)%Z ->
  length source = length x -> length source' = length x ->
  firstn (length x - Z.to_nat lag) source = firstn (length x - Z.to_nat lag) source' ->
  query_transfer_entropy leb gamma lib x source lag k r1 r2 r3 = query_transfer_entropy leb gamma lib x source' lag k r1 r2 r3.
Proof. intros A B C D E. rewrite !transfer_rows by assumption. now rewrite E. Qed.
End Transfer.
Theorem cond_few {X} (leb : X -> X -> bool) lib gamma x y z h k r1 r2 r3 : length x = h -> length y = h -> length z = h ->
  1 <= k -> h <= k -> run_ok leb [x; y; z] r1 -> run_ok leb [y; z] r2 -> run_ok leb [x; z] r3 ->
  query_cond_indep leb gamma lib x y z (Z.of_nat k) r1 r2 r3 = Ok NaN.
Proof.
  intros Lx Ly Lz K1 K2 R1 R2 R3. unfold query_cond_indep.
  rewrite !(copula_few leb _ h); try assumption; try discriminate; try reflexivity; repeat apply Forall_cons; try assumption; apply Forall_nil.
Qed.
(** Demonstration: integer columns. *)
From Verif Require Import KnnExprPropsLemmas.
Lemma z_total : total_order Z.leb.
Proof. split; [intros x y; rewrite !Z.leb_le; lia|intros x y z; rewrite !Z.leb_le; lia]. Qed.
Definition demo_run {X} (leb : X -> X -> bool) (cols : list (list (option X))) : run := (demo_trace (map (fun c => [rank_share leb c]) cols), Some (2, [1; 0])).
Lemma demo_run_ok {X} (leb : X -> X -> bool) cols : run_ok leb cols (demo_run leb cols).
Proof.
  split; [|split; [lia|apply perm_swap]]. pose proof (demo_trace_ok (map (fun c => [rank_share leb c]) cols)) as H. now rewrite map_length in H.
Qed.
Definition zx : list (option Z) := [Some 30; Some 10; None; Some 20; Some 20]%Z.
Definition zy : list (option Z) := [Some 1; Some 2; Some 3; Some 4; Some 5]%Z.
Definition zz : list (option Z) := [Some 7; Some 7; Some 9; Some 8; None]%Z.
Lemma demo_complete : filter (complete [zx; zy; zz]) (seq 0 5) = [0; 1; 3].
Proof. reflexivity. Qed.
Lemma demo_rank : average_rank Z.leb zx 20%Z = (5 / 2)%R /\ average_rank Z.leb zx 30%Z = 4%R.
Proof. unfold average_rank. cbn. lra. Qed.
Lemma cond_value {X} (leb : X -> X -> bool) lib gamma x y z k r1 r2 r3 a b c :
  query_copula_entropy leb gamma lib [x; y; z] k r1 = Ok (Fin a) ->
  query_copula_entropy leb gamma lib [y; z] k r2 = Ok (Fin b) ->
  query_copula_entropy leb gamma lib [x; z] k r3 = Ok (Fin c) ->
  query_cond_indep leb gamma lib x y z k r1 r2 r3 = Ok (Fin (a - b - c)).
Proof. intros A B C. unfold query_cond_indep. rewrite A, B, C. cbn [lift2 xsub xneg xplus]. reflexivity. Qed.

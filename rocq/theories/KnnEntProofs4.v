From Coq Require Import Bool List Arith NArith ZArith Lia Permutation Sorted Reals Lra.
From Flocq Require Import Core IEEE754.BinarySingleNaN.
From Verif Require Import Num F64 KdModel KdSpec KdProofs KdSound PyKdModel PyKdSpec PyKdProofs KnnExprModel KnnExprSpec KnnExprProofs KnnExprSem
  KnnExprPropsLemmas MetricSpec DigammaModel DigammaSpec DigammaProofs KnnEntModel KnnEntSpec KnnEntProofs KnnEntProofs2 KnnEntProofs3.
Import ListNotations.
Open Scope nat_scope.

(** Row order. *)
Lemma others_perm m rows rows' i j P : Permutation rows rows' -> i < length rows -> j < length rows' -> nth i rows [] = nth j rows' [] ->
  others m rows i P = others m rows' j P.
Proof.
  intros PM Hi Hj E. pose proof (others_total m rows i P Hi) as A. pose proof (others_total m rows' j P Hj) as B. rewrite <- E in B.
  pose proof (Permutation_length (filter_perm (fun p => P (rdist m p (nth i rows []))) _ _ PM)) as C.
  pose proof (eq_trans (eq_trans (eq_sym A) C) B). lia.
Qed.
Lemma sum_perm l l' : Permutation l l' -> fold_right Rplus 0%R l = fold_right Rplus 0%R l'.
Proof. induction 1; cbn; lra. Qed.
Lemma forallb_perm {X} (g : X -> bool) l l' : Permutation l l' -> forallb g l = forallb g l'.
Proof. induction 1; cbn; [reflexivity|now f_equal| |congruence]. destruct (g x), (g y); reflexivity. Qed.
Lemma forallb_map {X Y} (f : X -> Y) g l : forallb g (map f l) = forallb (fun x => g (f x)) l.
Proof. induction l as [|a l IH]; [reflexivity|]. cbn. now rewrite IH. Qed.
Lemma bounded_perm n f : FinFun.bFun n f -> FinFun.bInjective n f -> Permutation (map f (seq 0 n)) (seq 0 n).
Proof.
  intros B I. apply NoDup_Permutation_bis.
  - assert (G : forall l, (forall x, In x l -> x < n) -> NoDup l -> NoDup (map f l)).
    { intros l H ND. induction ND as [|a l Na ND IH]; [constructor|]. cbn. constructor; [|apply IH; intros; apply H; now right].
      intros Hin. apply in_map_iff in Hin. destruct Hin as (b & E & Hb). apply Na. rewrite <- (I b a); [exact Hb|apply H; now right|apply H; now left|exact E]. }
    apply G; [intros x Hx; apply in_seq in Hx; lia|apply seq_NoDup].
  - now rewrite map_length.
  - intros x Hx. apply in_map_iff in Hx. destruct Hx as (y & <- & Hy). apply in_seq in Hy. apply in_seq. split; [lia|]. cbn. apply B. lia.
Qed.
Theorem kl_perm m rows rows' dim k tot g v v' : Permutation rows rows' -> kl_sum m rows dim k tot g v -> kl_sum m rows' dim k tot g v' -> v = v'.
Proof.
  intros PM (r & A & ->) (s & B & ->). pose proof (Permutation_length PM) as L. rewrite <- L in *. set (n := length rows) in *.
  destruct (proj1 (Permutation_nth rows rows' []) PM) as (_ & f & F1 & F2 & F3). fold n in F1, F2, F3.
  assert (E : forall i, In i (seq 0 n) -> s i = r (f i)).
  { intros i Hi. apply in_seq in Hi. assert (Hi' : i < n) by lia. pose proof (F1 i Hi') as Hf. specialize (F3 i Hi').
    apply (kth_unique m rows k (f i)); [|apply A; exact Hf]. destruct (B i Hi') as [_ [K1 K2]]. unfold kth_nearest.
    rewrite !(others_perm m rows rows' (f i) i _ PM Hf ltac:(lia) (eq_sym F3)). auto. }
  pose proof (bounded_perm n f F1 F2) as PP.
  assert (E1 : forallb (fun i => Rltb 0 (s i)) (seq 0 n) = forallb (fun i => Rltb 0 (r i)) (seq 0 n)).
  { rewrite <- (forallb_perm (fun i => Rltb 0 (r i)) _ _ PP), forallb_map. clear - E. induction (seq 0 n) as [|a l IH]; [reflexivity|]. cbn [forallb].
    rewrite (E a (or_introl eq_refl)), IH; [reflexivity|]. intros; apply E. now right. }
  assert (E2 : fold_right Rplus 0%R (map (fun i => ln (2 * s i)) (seq 0 n)) = fold_right Rplus 0%R (map (fun i => ln (2 * r i)) (seq 0 n))).
  { rewrite <- (sum_perm _ _ (Permutation_map (fun i => ln (2 * r i)) PP)), map_map. f_equal. apply map_ext_in. intros i Hi. now rewrite E. }
  now rewrite E1, E2.
Qed.
Lemma kl_unique m rows dim k tot g v v' : kl_sum m rows dim k tot g v -> kl_sum m rows dim k tot g v' -> v = v'.
Proof. apply kl_perm. reflexivity. Qed.

Section Main.
Variables (lib : SplitLib N unit) (gamma : R -> R).
Hypothesis LO : lib_ok N unit lib.
Hypothesis GO : gamma_half_ok gamma.
Theorem row_order n h cols cols' trace trace' k par par' : n = Dl2 \/ (n = Dinf /\ Forall (all_finite N) (rows_of h cols)) ->
  table N h cols -> table N h cols' -> length cols = length cols' -> Permutation (rows_of h cols) (rows_of h cols') ->
  interleaving (all_writes N (length cols) 0 cols) trace -> interleaving (all_writes N (length cols') 0 cols') trace' -> par_ok par -> par_ok par' ->
  1 <= k -> k < length (finite_rows (rows_of h cols)) -> moderate (metric_of n) (finite_rows (rows_of h cols)) ->
  query_knn_entropy gamma lib n cols trace (Z.of_nat k) par = query_knn_entropy gamma lib n cols' trace' (Z.of_nat k) par'.
Proof.
  intros M TB TB' LC PM IL IL' PO PO' K1 K2 MOD.
  assert (PF : Permutation (finite_rows (rows_of h cols)) (finite_rows (rows_of h cols'))) by (now apply filter_perm).
  destruct (estimate_ok lib gamma LO GO n h cols trace k par M TB IL PO K1 K2 MOD) as (v & -> & A).
  destruct (estimate_ok lib gamma LO GO n h cols' trace' k par') as (v' & -> & B); try assumption.
  - destruct M as [M|[M F]]; [now left|right]. split; [exact M|]. now apply (Forall_perm _ _ _ PM).
  - rewrite <- (Permutation_length PF). exact K2.
  - intros p q Hp Hq. apply MOD; eapply Permutation_in; try (symmetry; exact PF); assumption.
  - f_equal. rewrite <- LC in B. eapply kl_perm; eassumption.
Qed.

(** k copies of a row among the other rows. *)
Lemma filter_in_len (g : nat -> bool) l js : NoDup js -> (forall j, In j js -> In j l /\ g j = true) -> length js <= length (filter g l).
Proof. intros ND H. apply NoDup_incl_length; [exact ND|]. intros j Hj. apply filter_In. now apply H. Qed.
Theorem copies n h cols trace k par i js : n = Dl2 \/ n = Dinf -> table N h cols -> interleaving (all_writes N (length cols) 0 cols) trace ->
  par_ok par -> 1 <= k -> k < h -> Forall (all_finite N) (rows_of h cols) -> moderate (metric_of n) (rows_of h cols) ->
  i < h -> NoDup js -> length js = k -> (forall j, In j js -> j < h /\ j <> i /\ nth j (rows_of h cols) [] = nth i (rows_of h cols) []) ->
  query_knn_entropy gamma lib n cols trace (Z.of_nat k) par = Ok NInf.
Proof.
  intros M TB IL PO K1 Kh FIN MOD Hi ND Lj HJ.
  destruct (entropy_ok lib gamma LO GO n h cols trace k par M TB IL PO K1 Kh FIN MOD) as (v & g & -> & _ & _ & rho & A & ->).
  assert (Lr : length (rows_of h cols) = h) by (unfold rows_of; now rewrite map_length, seq_length).
  rewrite Lr in *. f_equal. destruct (forallb _ _) eqn:E; [|reflexivity]. exfalso.
  rewrite forallb_forall in E. specialize (E i). rewrite in_seq in E. specialize (E ltac:(lia)).
  destruct (A i Hi) as [_ [L _]]. unfold others in L. rewrite Lr in L.
  pose proof (filter_in_len (fun j => negb (j =? i) && Rltb (rdist (metric_of n) (nth j (rows_of h cols) []) (nth i (rows_of h cols) [])) (rho i)) (seq 0 h) js ND) as G.
  assert (k <= length (filter (fun j => negb (j =? i) && Rltb (rdist (metric_of n) (nth j (rows_of h cols) []) (nth i (rows_of h cols) [])) (rho i)) (seq 0 h))); [|lia].
  rewrite <- Lj. apply G. intros j Hj. destruct (HJ j Hj) as (B & NE & EQ). split; [apply in_seq; lia|].
  apply Nat.eqb_neq in NE. rewrite NE, EQ. cbn [negb andb].
  rewrite Forall_forall in FIN. destruct (self_distance (metric_of n) (nth i (rows_of h cols) [])) as (z & Z); [apply FIN, nth_In; lia|].
  unfold rdist. rewrite Z. exact E.
Qed.
End Main.

(** A gamma function at the half integers exists. *)
Section Witness.
Open Scope R_scope.
Definition base (x : R) : R := if Req_EM_T x (1 / 2) then sqrt PI else 1.
Fixpoint gm (f : nat) (x : R) : R := match f with O => base x | S f => if Rle_dec x 1 then base x else (x - 1) * gm f (x - 1) end.
Definition demo_gamma (x : R) : R := gm (Z.to_nat (up x)) x.
Lemma gm_fuel f g x : x <= INR f -> x <= INR g -> gm f x = gm g x.
Proof.
  revert g x. induction f as [|f IH]; intros [|g] x A B; cbn [gm]; rewrite ?S_INR in *; cbn [INR] in *; try reflexivity; try (destruct (Rle_dec x 1); [reflexivity|lra]).
  destruct (Rle_dec x 1); [reflexivity|]. f_equal. apply IH; lra.
Qed.
Lemma up_fuel x : 0 < x -> x <= INR (Z.to_nat (up x)).
Proof.
  intros H. destruct (archimed x) as [A _]. rewrite INR_IZR_INZ, Z2Nat.id; [lra|]. apply le_IZR. lra.
Qed.
Lemma demo_gamma_ok : gamma_half_ok demo_gamma.
Proof.
  unfold demo_gamma. split; [|split].
  - rewrite (gm_fuel _ 1) by (try (apply up_fuel; lra); cbn; lra). cbn [gm]. destruct (Rle_dec 1 1); [|lra]. unfold base. destruct (Req_EM_T 1 (1 / 2)); lra.
  - rewrite (gm_fuel _ 1) by (try (apply up_fuel; lra); cbn; lra). cbn [gm]. destruct (Rle_dec (1 / 2) 1); [|lra]. unfold base. destruct (Req_EM_T (1 / 2) (1 / 2)); [reflexivity|lra].
  - intros x Hx. pose proof (up_fuel x Hx) as U. rewrite (gm_fuel _ (S (Z.to_nat (up x)))) by (try (apply up_fuel; lra); rewrite S_INR; lra).
    cbn [gm]. destruct (Rle_dec (1 + x) 1); [lra|]. replace (1 + x - 1) with x by ring. reflexivity.
Qed.
End Witness.

(** Two points at distance 1/2 and a null. *)
Definition half : f64 := ndiv N (none N) two.
Definition null_col : column f64t := [[Some (nzero N); Some half]; [None]].
Definition null_cols : list (column f64t) := [null_col].
Lemma null_table : table N 3 null_cols.
Proof. split; [discriminate|]. repeat constructor. Qed.
Lemma half_rows : finite_rows (rows_of 3 null_cols) = [[nzero N]; [half]].
Proof. reflexivity. Qed.
Lemma half_R (x : f64) : B2SF x = SpecFloat.S754_finite false 4503599627370496 (-53) -> B2R x = (1 / 2)%R.
Proof. intros H. rewrite <- SF2R_B2SF, H. cbv. lra. Qed.
Lemma d00 : rdist ML2 [nzero N] [nzero N] = 0%R. Proof. reflexivity. Qed.
Lemma d11 : rdist ML2 [half] [half] = 0%R. Proof. unfold rdist. replace (spec_dist N ML2 [half] [half]) with (nzero N : f64) by reflexivity. reflexivity. Qed.
Lemma d01 : rdist ML2 [nzero N] [half] = (1 / 2)%R. Proof. unfold rdist. apply half_R. vm_compute. reflexivity. Qed.
Lemma d10 : rdist ML2 [half] [nzero N] = (1 / 2)%R. Proof. unfold rdist. apply half_R. vm_compute. reflexivity. Qed.
Lemma half_moderate : moderate ML2 (finite_rows (rows_of 3 null_cols)).
Proof. rewrite half_rows. intros p q [<-|[<-|[]]] [<-|[<-|[]]]; reflexivity. Qed.
Lemma half_kth i : i < 2 -> kth_nearest ML2 [[nzero N]; [half]] 1 i (1 / 2).
Proof.
  intros H. assert (C : i = 0 \/ i = 1) by lia. unfold kth_nearest, others. destruct C as [-> | ->].
  all: cbn [length seq filter Nat.eqb negb andb nth]; rewrite ?d01, ?d10; unfold Rltb, Rleb; destruct (Rlt_dec (1 / 2) (1 / 2)), (Rle_dec (1 / 2) (1 / 2)); try lra; cbn; lia.
Qed.
Lemma half_sum dim tot g v : kl_sum ML2 [[nzero N]; [half]] dim 1 tot g v -> v = Fin (g + ln (round_ball dim)).
Proof.
  intros (rho & A & ->). cbn [length] in A.
  assert (E0 : rho 0 = (1 / 2)%R) by (apply (kth_unique ML2 [[nzero N]; [half]] 1 0); [apply A; lia|apply half_kth; lia]).
  assert (E1 : rho 1 = (1 / 2)%R) by (apply (kth_unique ML2 [[nzero N]; [half]] 1 1); [apply A; lia|apply half_kth; lia]).
  cbn [length seq forallb map fold_right]. rewrite E0, E1. unfold Rltb. destruct (Rlt_dec 0 (1 / 2)); [|lra]. cbn [andb ball_volume].
  replace (2 * (1 / 2))%R with 1%R by lra. rewrite ln_1. f_equal. ring.
Qed.
Theorem nulls_refuted : exists h cols trace k, table N h cols /\ interleaving (all_writes N (length cols) 0 cols) trace /\
  1 <= k /\ k < length (finite_rows (rows_of h cols)) /\ moderate ML2 (finite_rows (rows_of h cols)) /\
  forall lib gamma par, lib_ok N unit lib -> gamma_half_ok gamma -> par_ok par ->
  exists v, query_knn_entropy gamma lib Dl2 cols trace (Z.of_nat k) par = Ok v /\
    forall g, (Rabs (g - harmonic k (length (finite_rows (rows_of h cols)))) <= 1 / 10)%R ->
      ~ kl_estimate ML2 (finite_rows (rows_of h cols)) (length cols) k g v.
Proof.
  exists 3, null_cols, (demo_trace null_cols), 1. split; [exact null_table|]. split; [apply demo_trace_ok|].
  rewrite half_rows. cbn [length]. split; [lia|]. split; [lia|]. split; [rewrite <- half_rows; exact half_moderate|].
  intros lib gamma par LO GO PO.
  destruct (entropy_nulls lib gamma LO GO 3 null_cols (demo_trace null_cols) 1 par null_table (demo_trace_ok _) PO ltac:(lia)) as (v & g & E & _ & G & K).
  { rewrite half_rows. cbn. lia. }
  { exact half_moderate. }
  exists v. split; [exact E|]. rewrite half_rows in K. apply half_sum in K. specialize (G ltac:(lia)).
  intros g' Hg K'. unfold kl_estimate in K'. apply half_sum in K'. rewrite K in K'. injection K' as E2. revert Hg. unfold harmonic in *. cbn in G |- *.
  intros Hg. apply Rabs_le_inv in Hg. change (length null_cols) with 1 in *. cbn in E2. lra.
Qed.
Theorem invalid lib gamma n cols trace k par : (k <= 0)%Z \/ (n <> Dl2 /\ n <> Dinf) -> query_knn_entropy gamma lib n cols trace k par = Err.
Proof.
  unfold query_knn_entropy. intros [H|[A B]]; [apply Z.leb_le in H; now rewrite H|]. destruct (k <=? 0)%Z; [reflexivity|]. destruct n; congruence.
Qed.
(** The two finite rows alone: the estimate is 1. *)
Definition two_cols : list (column f64t) := [[[Some (nzero N); Some half]]].
Lemma two_table : table N 2 two_cols.
Proof. split; [discriminate|]. repeat constructor. Qed.
Lemma two_rows : rows_of 2 two_cols = [[nzero N]; [half]].
Proof. reflexivity. Qed.
Lemma two_finite : Forall (all_finite N) (rows_of 2 two_cols).
Proof. rewrite two_rows. repeat constructor. Qed.
Lemma two_moderate : moderate ML2 (rows_of 2 two_cols).
Proof. rewrite two_rows, <- half_rows. exact half_moderate. Qed.
Lemma two_value : query_knn_entropy demo_gamma (demo_lib_of unit) Dl2 two_cols (demo_trace two_cols) 1 (Some (2, [1; 0])) = Ok (Fin 1).
Proof.
  destruct (entropy_ok (demo_lib_of unit) demo_gamma (demo_lib_of_ok unit) demo_gamma_ok Dl2 2 two_cols (demo_trace two_cols) 1 (Some (2, [1; 0]))) as (v & g & E & _ & G & K).
  - now left.
  - exact two_table.
  - apply demo_trace_ok.
  - split; [lia|apply perm_swap].
  - lia.
  - lia.
  - exact two_finite.
  - exact two_moderate.
  - change (Z.of_nat 1) with 1%Z in E. rewrite E. f_equal. rewrite two_rows in K. apply half_sum in K. rewrite K, (G ltac:(lia)). f_equal.
    change (length two_cols) with 1. unfold harmonic. cbn. rewrite ln_1. lra.
Qed.
(** Two copies of a row. *)
Definition copy_cols : list (column f64t) := [[[Some half]; [Some half]]].
Lemma copy_value : query_knn_entropy demo_gamma (demo_lib_of unit) Dl2 copy_cols (demo_trace copy_cols) 1 None = Ok NInf.
Proof.
  apply (copies (demo_lib_of unit) demo_gamma (demo_lib_of_ok unit) demo_gamma_ok Dl2 2 copy_cols (demo_trace copy_cols) 1 None 0 [1]).
  - now left.
  - split; [discriminate|]. repeat constructor.
  - apply demo_trace_ok.
  - exact I.
  - lia.
  - lia.
  - repeat constructor.
  - intros p q [<-|[<-|[]]] [<-|[<-|[]]]; reflexivity.
  - lia.
  - repeat constructor. intros [].
  - reflexivity.
  - intros j [<-|[]]. split; [lia|]. split; [lia|reflexivity].
Qed.

(** Proofs about the Python-facing KD-tree, for any number type satisfying [NumLaws]. *)
From Coq Require Import Bool List Arith Lia Permutation Sorted NArith ZArith.
From Verif Require Import Num PermTac KdModel KdSpec KdProofs KdSound KnnUnique PyKdModel PyKdSpec.
Import ListNotations.

(** ** Schedules *)
Lemma traverse_spec {X Y} (f : X -> option Y) xs ys :
  traverse f xs = Some ys <-> Forall2 (fun x y => f x = Some y) xs ys.
Proof.
  revert ys. induction xs as [|x xs IH]; intros ys; simpl.
  - split; [intros [= <-]; constructor|inversion 1; reflexivity].
  - destruct (f x) as [y|] eqn:E.
    + destruct (traverse f xs) as [ys'|].
      * split; [intros [= <-]; constructor; [exact E|now apply IH]|].
        inversion 1; subst. replace y0 with y by congruence. f_equal. f_equal.
        assert (Some ys' = Some l') by now apply IH. congruence.
      * split; [discriminate|]. inversion 1; subst. apply IH in H4. discriminate.
    + split; [discriminate|]. inversion 1; subst. congruence.
Qed.

Lemma traverse_some {X Y} (f : X -> option Y) xs :
  (forall x, In x xs -> exists y, f x = Some y) -> exists ys, traverse f xs = Some ys.
Proof.
  induction xs as [|x xs IH]; intros H; simpl; [eauto|].
  destruct (H x) as (y & ->); [left; reflexivity|].
  destruct IH as (ys & ->); [intros z Hz; apply H; right; exact Hz|]. eauto.
Qed.

Lemma traverse_map {X Y Z} (f : Y -> option Z) (g : X -> Y) xs :
  traverse f (map g xs) = traverse (fun x => f (g x)) xs.
Proof. induction xs as [|x xs IH]; simpl; [reflexivity|]. rewrite IH. reflexivity. Qed.

Lemma nth_error_ex' {X} (l : list X) i : i < length l -> exists x, nth_error l i = Some x.
Proof.
  intros H. destruct (nth_error l i) eqn:E; [eauto|]. apply nth_error_None in E. lia.
Qed.

Lemma nth_error_ext {X} : forall (l l' : list X), (forall i, nth_error l i = nth_error l' i) -> l = l'.
Proof.
  induction l as [|x l IH]; intros [|y l'] H; [reflexivity|specialize (H 0); discriminate|specialize (H 0); discriminate|].
  pose proof (H 0) as H0. injection H0 as ->. f_equal. apply IH. intros i. exact (H (S i)).
Qed.

Lemma par_slots_ok {X Y} (f : X -> option Y) xs : forall sched slots,
  length slots = length xs -> Forall (fun i => i < length xs) sched ->
  (forall x, In x xs -> exists y, f x = Some y) ->
  exists out, par_slots f xs sched slots = Some out /\ length out = length xs /\
    forall i, nth_error out i =
      if existsb (Nat.eqb i) sched then option_map f (nth_error xs i) else nth_error slots i.
Proof.
  induction sched as [|j sched IH]; intros slots L F H; simpl.
  - exists slots. auto.
  - apply Forall_cons_iff in F. destruct F as [Fj F].
    destruct (nth_error_ex' xs j Fj) as (x & Ex). rewrite Ex.
    destruct (H x (nth_error_In _ _ Ex)) as (y & Ey). rewrite Ey.
    destruct (set_nth_some slots j (Some y)) as (w & Ew & Lw & Hw); [lia|]. rewrite Ew.
    destruct (IH w) as (out & Eo & Lo & Ho); [lia|exact F|exact H|].
    exists out. split; [exact Eo|]. split; [exact Lo|].
    intros i. rewrite Ho, Hw. destruct (existsb (Nat.eqb i) sched); [rewrite orb_true_r; reflexivity|].
    rewrite orb_false_r. destruct (Nat.eqb_spec i j); [|reflexivity].
    subst i. rewrite Ex. simpl. rewrite Ey. reflexivity.
Qed.

Lemma traverse_fail {X Y} (f : X -> option Y) xs x : In x xs -> f x = None -> traverse f xs = None.
Proof.
  induction xs as [|z xs IH]; [contradiction|]. intros [->|H] E; simpl.
  - rewrite E. reflexivity.
  - rewrite IH by assumption. destruct (f z); reflexivity.
Qed.

Lemma par_slots_fail {X Y} (f : X -> option Y) xs j x : nth_error xs j = Some x -> f x = None ->
  forall sched slots, In j sched -> par_slots f xs sched slots = None.
Proof.
  intros Ex Ef. induction sched as [|i sched IH]; intros slots H; [contradiction|]. simpl.
  destruct H as [->|H].
  - rewrite Ex, Ef. reflexivity.
  - destruct (nth_error xs i); [|reflexivity]. destruct (f x0); [|reflexivity].
    destruct (set_nth slots i (Some y)); [|reflexivity]. now apply IH.
Qed.

(** Any schedule gives the sequential result (including "a call panicked"). *)
Lemma par_map_seq {X Y} (f : X -> option Y) xs sched :
  Permutation sched (seq 0 (length xs)) -> par_map sched f xs = traverse f xs.
Proof.
  intros P.
  assert (IN : forall i, i < length xs -> In i sched).
  { intros i Hi. eapply Permutation_in; [symmetry; exact P|]. apply in_seq. lia. }
  destruct (traverse f xs) as [ys|] eqn:E.
  - apply traverse_spec in E.
    assert (T : forall x, In x xs -> exists y, f x = Some y).
    { intros x Hx. clear - E Hx. induction E as [|a b la lb Hab E IH]; [contradiction|].
      destruct Hx as [->|Hx]; eauto. }
    assert (B : Forall (fun i => i < length xs) sched).
    { apply Forall_forall. intros i Hi. apply (Permutation_in _ P) in Hi. apply in_seq in Hi. lia. }
    destruct (par_slots_ok f xs sched (repeat None (length xs)) (repeat_length _ _) B T)
      as (out & Eo & Lo & Ho).
    unfold par_map. rewrite Eo.
    assert (EQ : out = map f xs).
    { apply nth_error_ext. intros i. rewrite Ho, nth_error_map.
      destruct (Nat.lt_ge_cases i (length xs)) as [Hi|Hi].
      - assert (existsb (Nat.eqb i) sched = true) as ->; [|reflexivity].
        apply existsb_exists. exists i. split; [now apply IN|apply Nat.eqb_refl].
      - rewrite (proj2 (nth_error_None xs i)) by lia.
        destruct (existsb (Nat.eqb i) sched); [reflexivity|].
        apply nth_error_None. rewrite repeat_length. lia. }
    rewrite EQ, traverse_map. apply traverse_spec. exact E.
  - assert (exists x, In x xs /\ f x = None) as (x & Hx & Ef).
    { clear - E. induction xs as [|x xs IH]; simpl in E; [discriminate|].
      destruct (f x) eqn:Ef; [|exists x; split; [left; reflexivity|exact Ef]].
      destruct (traverse f xs); [discriminate|]. destruct IH as (z & Hz & Ez); [reflexivity|].
      exists z. split; [right; exact Hz|exact Ez]. }
    unfold par_map. destruct (In_nth_error _ _ Hx) as (j & Ej).
    rewrite (par_slots_fail f xs j x Ej Ef); [reflexivity|].
    apply IN. apply nth_error_Some. congruence.
Qed.

Lemma run_seq {X Y} par big (f : X -> option Y) xs : sched_ok (length xs) par ->
  run par big f xs = traverse f xs.
Proof.
  destruct par as [sched|]; simpl; [|reflexivity]. intros P. destruct big; [now apply par_map_seq|reflexivity].
Qed.

Section P.
Context (N : NumOps) (laws : NumLaws N).
Notation T := (carrier N).
Notation leaf := (leaf N nat).
Notation kdt := (kdt N nat).
Notation NB := (NB N nat).
Notation nle := (nle N). Notation nlt := (nlt N). Notation nnan := (nnan N).
Notation nadd := (nadd N). Notation nzero := (nzero N).

(** ** Matrices as rows *)
Lemma chunks_rows n : forall k l, chunks N n k l = map (fun i => firstn n (skipn (i * n) l)) (seq 0 k).
Proof.
  induction k as [|k IH]; intros l; simpl; [reflexivity|]. f_equal.
  rewrite IH. rewrite <- seq_shift, map_map. apply map_ext. intros i.
  assert (SK : forall a b (l0 : list T), skipn a (skipn b l0) = skipn (b + a) l0).
  { intros a b. induction b as [|b IHb]; intros l0; [reflexivity|].
    destruct l0; simpl; [destruct a; reflexivity|apply IHb]. }
  rewrite SK. reflexivity.
Qed.
Lemma chunks_exact_rows dim X : good_mat N dim X ->
  chunks_exact N (m_cols N X) (m_data N X) = mat_rows N X.
Proof.
  intros (_ & Hc & Hd & Hr & L). unfold chunks_exact, mat_rows, mat_row.
  rewrite chunks_rows, L, Nat.div_mul by lia. reflexivity.
Qed.
Lemma good_usable dim X : good_mat N dim X -> usable N X = true.
Proof.
  intros (H1 & Hc & Hd & Hr & L). unfold usable. rewrite H1. simpl.
  destruct (Nat.eqb_spec (m_rows N X * m_cols N X) 0); [nia|reflexivity].
Qed.
Lemma mat_rows_length X : length (mat_rows N X) = m_rows N X.
Proof. unfold mat_rows. now rewrite map_length, seq_length. Qed.
Lemma mat_rows_dim dim X r : good_mat N dim X -> In r (mat_rows N X) -> length r = dim.
Proof.
  intros (_ & Hc & Hd & Hr & L) H. apply in_map_iff in H. destruct H as (i & <- & Hi).
  apply in_seq in Hi. unfold mat_row. rewrite firstn_length, skipn_length, L. nia.
Qed.
Lemma skipn_incl {X} (x : X) : forall n l, In x (skipn n l) -> In x l.
Proof.
  induction n as [|n IH]; intros [|y l] H; simpl in *; try assumption. right. now apply IH.
Qed.
Lemma firstn_incl {X} (x : X) : forall n l, In x (firstn n l) -> In x l.
Proof.
  induction n as [|n IH]; intros [|y l] H; simpl in *; try assumption; try contradiction.
  destruct H as [->|H]; [left; reflexivity|right; now apply IH].
Qed.
Lemma mat_rows_incl X r x : In r (mat_rows N X) -> In x r -> In x (m_data N X).
Proof.
  intros H Hx. apply in_map_iff in H. destruct H as (i & <- & _). unfold mat_row in Hx.
  eapply skipn_incl, firstn_incl, Hx.
Qed.

Definition pr (l : leaf) : nat * list T := (item l, row_vec l).
Lemma enum_pr : forall rows s, map pr (enum_leaves N s rows) = combine (seq s (length rows)) rows.
Proof. induction rows as [|r rows IH]; intros s; simpl; [reflexivity|]. rewrite IH. reflexivity. Qed.
Lemma enum_length : forall rows s, length (enum_leaves N s rows) = length rows.
Proof. induction rows as [|r rows IH]; intros s; simpl; [reflexivity|]. now rewrite IH. Qed.
Lemma enum_app : forall a b s, enum_leaves N s (a ++ b) = enum_leaves N s a ++ enum_leaves N (s + length a) b.
Proof.
  induction a as [|r a IH]; intros b s; simpl; [now rewrite Nat.add_0_r|].
  rewrite IH. f_equal. f_equal. f_equal. lia.
Qed.
Lemma enum_forall (P : list T -> Prop) : forall rows s, Forall P rows ->
  Forall (fun l : leaf => P (row_vec l)) (enum_leaves N s rows).
Proof. induction rows as [|r rows IH]; intros s F; simpl; constructor; inversion F; subst; auto. Qed.
Lemma enum_ids : forall rows s l, In l (enum_leaves N s rows) -> s <= item l < s + length rows.
Proof.
  induction rows as [|r rows IH]; intros s l H; simpl in *; [contradiction|].
  destruct H as [<-|H]; simpl; [lia|]. apply IH in H. lia.
Qed.

(** ** Histories *)
Record hist_inv (dim : nat) (sm : SplitMethod) (d : DIST N) (rows : list (list T)) (s : PyKDT N) : Prop := {
  hi_dim : k_dim N s = dim;
  hi_sm : k_sm N s = sm;
  hi_d : k_d N s = d;
  hi_wf : twf N nat dim (k_tree N s);
  hi_elems : Permutation (elems N nat (k_tree N s)) (enum_leaves N 0 rows);
  hi_rows : Forall (row_ok N nat sm dim) (elems N nat (k_tree N s));
}.

Lemma rows_ok balanced n dim X : good_mat N dim X -> clean N balanced n [X] ->
  Forall (fun r => length r = dim /\ match split_of_bool balanced with MEDIAN => no_nan N r | MIDPOINT => True end)
         (mat_rows N X).
Proof.
  intros G C. apply Forall_forall. intros r Hr. split; [eapply mat_rows_dim; eassumption|].
  destruct balanced; simpl; [|exact I]. specialize (C (or_introl eq_refl)). inversion C; subst.
  apply Forall_forall. intros x Hx. unfold no_nan in H1. rewrite Forall_forall in H1. apply H1.
  eapply mat_rows_incl; eassumption.
Qed.

Lemma clean_cons b n X Xs : clean N b n (X :: Xs) <-> clean N b n [X] /\ clean N b n Xs.
Proof.
  unfold clean. split.
  - intros H. split; intros K; specialize (H K); inversion H; subst; auto.
  - intros [H1 H2] K. specialize (H1 K). inversion H1; subst. auto.
Qed.

Lemma py_new_ok lib simd balanced n n0 dim X : lib_ok N nat lib -> good_mat N dim X ->
  clean N balanced n0 [X] ->
  exists s, py_new N lib simd X balanced n = Ok s /\
    hist_inv dim (split_of_bool balanced) (new_from_str_informed N simd n dim) (mat_rows N X) s.
Proof.
  intros LO G C. unfold py_new. rewrite (good_usable dim X G), (chunks_exact_rows dim X G).
  pose proof (rows_ok balanced n0 dim X G C) as RO.
  assert (RE : Forall (row_ok N nat (split_of_bool balanced) dim) (enum_leaves N 0 (mat_rows N X))).
  { exact (enum_forall (fun r => length r = dim /\ match split_of_bool balanced with MIDPOINT => True | MEDIAN => no_nan N r end) _ 0 RO). }
  assert (NE : exists r0 rest, mat_rows N X = r0 :: rest).
  { destruct (mat_rows N X) as [|r0 rest] eqn:E; [|eauto].
    pose proof (mat_rows_length X) as L. rewrite E in L. simpl in L. destruct G as (_ & _ & _ & G & _). lia. }
  destruct NE as (r0 & rest & NE).
  assert (Lr0 : length r0 = dim).
  { eapply mat_rows_dim; [exact G|]. rewrite NE. left. reflexivity. }
  unfold from_leaves_unchecked.
  assert (Hd : 0 < dim) by (destruct G; tauto).
  destruct (add_all_ok N laws nat lib (split_of_bool balanced) dim (suggest_capacity dim) LO Hd
              (enum_leaves N 0 (mat_rows N X)) (new_empty N nat dim) (new_empty_wf N laws nat dim)
              (Forall_nil _) RE) as (t & E & W & P).
  rewrite NE in *. cbn [enum_leaves] in *. cbn [row_vec]. rewrite Lr0, E.
  destruct G as (_ & Hc & _). rewrite Hc.
  eexists. split; [reflexivity|]. constructor; simpl; try reflexivity; try assumption.
  eapply Forall_perm; [symmetry; exact P|]. exact RE.
Qed.

Lemma py_add_ok lib balanced n dim d rows s X : lib_ok N nat lib ->
  hist_inv dim (split_of_bool balanced) d rows s -> good_mat N dim X -> clean N balanced n [X] ->
  exists s', py_add N lib s X = Ok s' /\
    hist_inv dim (split_of_bool balanced) d (rows ++ mat_rows N X) s'.
Proof.
  intros LO [H1 H2 H3 H4 H5 H6] G C. unfold py_add.
  rewrite (good_usable dim X G), (chunks_exact_rows dim X G), H1.
  destruct G as (G1 & Hc & Hd & Hr & L). rewrite Hc, Nat.eqb_refl. cbn [negb].
  rewrite count_all_ok, (Permutation_length H5), enum_length, H2.
  assert (G : good_mat N dim X) by (repeat split; assumption).
  assert (RE : Forall (row_ok N nat (split_of_bool balanced) dim) (enum_leaves N (length rows) (mat_rows N X))).
  { exact (enum_forall (fun r => length r = dim /\ match split_of_bool balanced with MIDPOINT => True | MEDIAN => no_nan N r end) _ _ (rows_ok balanced n dim X G C)). }
  destruct (add_all_ok N laws nat lib (split_of_bool balanced) dim (suggest_capacity dim) LO Hd _ _ H4 H6 RE)
    as (t & E & W & P).
  rewrite E. eexists. split; [reflexivity|]. constructor; simpl; try reflexivity; try assumption.
  - rewrite P, H5, enum_app. reflexivity.
  - eapply Forall_perm; [symmetry; exact P|]. apply Forall_app. auto.
Qed.

Lemma py_history_ok lib simd balanced n n0 dim X0 Xs : lib_ok N nat lib ->
  Forall (good_mat N dim) (X0 :: Xs) -> clean N balanced n0 (X0 :: Xs) ->
  exists s, py_history N lib simd balanced n X0 Xs = Ok s /\
    hist_inv dim (split_of_bool balanced) (new_from_str_informed N simd n dim) (all_rows N (X0 :: Xs)) s.
Proof.
  intros LO G C. apply Forall_cons_iff in G. destruct G as [G0 G].
  apply clean_cons in C. destruct C as [C0 C].
  destruct (py_new_ok lib simd balanced n n0 dim X0 LO G0 C0) as (s0 & E0 & I0).
  unfold py_history. rewrite E0. unfold all_rows. cbn [flat_map].
  clear E0. revert s0 I0. generalize (mat_rows N X0) as rows0. clear G0 C0.
  induction Xs as [|X Xs IH]; intros rows0 s0 I0; cbn [fold_left flat_map].
  - exists s0. rewrite app_nil_r. auto.
  - apply Forall_cons_iff in G. destruct G as [GX G]. apply clean_cons in C. destruct C as [CX C].
    destruct (py_add_ok lib balanced n0 dim _ rows0 s0 X LO I0 GX CX) as (s1 & E1 & I1).
    rewrite E1. rewrite app_assoc. exact (IH G C _ _ I1).
Qed.

Lemma hist_stored dim sm d rows s : hist_inv dim sm d rows s ->
  Permutation (map pr (elems N nat (k_tree N s))) (indexed rows).
Proof. intros H. rewrite (Permutation_map pr (hi_elems _ _ _ _ _ H)), enum_pr. reflexivity. Qed.

Lemma hist_count dim sm d rows s : hist_inv dim sm d rows s -> py_count N s = Ok (length rows).
Proof.
  intros H. unfold py_count. rewrite count_all_ok, (Permutation_length (hi_elems _ _ _ _ _ H)), enum_length.
  reflexivity.
Qed.

Lemma scalar_to_DIST simd n dim : scalar_metric n dim ->
  new_from_str_informed N simd n dim = to_DIST N (metric_of n).
Proof.
  intros H. destruct n; simpl; try reflexivity; destruct H as [H|[H|H]]; try discriminate;
    (destruct (Nat.ltb_spec dim 16); [reflexivity|lia]).
Qed.

Lemma good_of_rows n dim rows s sm d : hist_inv dim sm d rows s ->
  (n = Dinf -> Forall (no_nan N) rows) ->
  Forall (good N nat (metric_of n) dim) (elems N nat (k_tree N s)).
Proof.
  intros H NN. pose proof (hi_rows _ _ _ _ _ H) as R. rewrite Forall_forall in R |- *. intros l Hl.
  destruct (R l Hl) as [L _]. split; [exact L|]. intros E.
  assert (En : n = Dinf) by (destruct n; try discriminate; reflexivity).
  specialize (NN En). pose proof (enum_forall (no_nan N) rows 0 NN) as F.
  rewrite Forall_forall in F. apply F. eapply Permutation_in; [exact (hi_elems _ _ _ _ _ H)|exact Hl].
Qed.

Lemma clean_rows balanced n dim Xs : Forall (good_mat N dim) Xs -> clean N balanced n Xs ->
  n = Dinf -> Forall (no_nan N) (all_rows N Xs).
Proof.
  intros _ C E. specialize (C (or_intror E)). apply Forall_forall. intros r Hr.
  apply in_flat_map in Hr. destruct Hr as (X & HX & Hr). rewrite Forall_forall in C.
  specialize (C X HX). unfold no_nan in *. rewrite Forall_forall in C |- *. intros x Hx. apply C.
  eapply mat_rows_incl; eassumption.
Qed.

(** ** Range queries *)
Definition sort_ok (sort_nb : list NB -> list NB) : Prop :=
  forall l, Permutation (sort_nb l) l /\
    (Forall (fun nb => nnan (nb_dist nb) = false) l ->
     StronglySorted (fun a b => nle (nb_dist a) (nb_dist b) = true) (sort_nb l)).

Definition nb_pair (nb : NB) : nat * T := (nb_item nb, nb_dist nb).

Lemma brute_of_hits m q r ls :
  map nb_pair (map (mkNB N nat (to_DIST N m) q) (hits N nat m q r ls)) = brute_within N nat m (map pr ls) q r.
Proof.
  unfold brute_within, hits. induction ls as [|l ls IH]; simpl; [reflexivity|].
  unfold D. rewrite dist_spec. destruct (nle (spec_dist N m (row_vec l) q) r); simpl; [|exact IH].
  f_equal; [|exact IH]. unfold nb_pair, mkNB. simpl. rewrite dist_spec. reflexivity.
Qed.

Lemma brute_perm m rows rows' q r : Permutation rows rows' ->
  Permutation (brute_within N nat m rows q r) (brute_within N nat m rows' q r).
Proof. intros P. unfold brute_within. apply Permutation_map, filter_perm, P. Qed.

Lemma existsb_nonfinite q : Forall (fun x => nfinite N x = true) q ->
  existsb (fun x => negb (nfinite N x)) q = false.
Proof. induction 1 as [|x q Hx F IH]; simpl; [reflexivity|]. rewrite Hx. exact IH. Qed.

Lemma within_one n dim sm simd rows s sort_nb q r sort :
  hist_inv dim sm (new_from_str_informed N simd n dim) rows s -> scalar_metric n dim ->
  (n = Dinf -> Forall (no_nan N) rows) -> sort_ok sort_nb ->
  length q = dim -> all_finite N q -> nle r (nadd nzero (neps N)) = false ->
  exists nbs, within_or_empty N sort_nb s sort (q, r) = Some nbs /\
    Permutation (map nb_pair nbs) (brute_within N nat (metric_of n) (indexed rows) q r) /\
    (sort = true -> StronglySorted (fun a b => nle (nb_dist a) (nb_dist b) = true) nbs).
Proof.
  intros H SM NN SO Lq Fq Hr. unfold within_or_empty, within. cbn [fst snd].
  rewrite Hr, (existsb_nonfinite q Fq), (hi_d _ _ _ _ _ H), (hi_dim _ _ _ _ _ H), (scalar_to_DIST simd n dim SM).
  cbn [orb]. pose proof (good_of_rows n _ _ _ _ _ H NN) as G. pose proof (hi_wf _ _ _ _ _ H) as W.
  destruct (within_loop_ok N laws nat (metric_of n) dim q r Lq Fq (size N nat (k_tree N s))
              [(nminv N, k_tree N s)] []) as (out & E & P).
  { simpl. lia. }
  { constructor; [|constructor]. now apply root_ok. }
  rewrite E. simpl in P. rewrite app_nil_r in P.
  assert (PB : Permutation (map nb_pair out) (brute_within N nat (metric_of n) (indexed rows) q r)).
  { rewrite (Permutation_map nb_pair P), brute_of_hits. apply brute_perm. eapply hist_stored, H. }
  destruct sort.
  - destruct (SO out) as [S1 S2]. exists (sort_nb out). split; [reflexivity|]. split.
    + rewrite (Permutation_map nb_pair S1). exact PB.
    + intros _. apply S2. eapply Forall_perm; [symmetry; exact P|].
      apply Forall_forall. intros nb Hnb. apply in_map_iff in Hnb. destruct Hnb as (l & <- & Hl).
      apply filter_In in Hl. destruct Hl as [_ Hl]. exact (le_nan_l N laws _ _ Hl).
  - exists out. split; [reflexivity|]. split; [exact PB|discriminate].
Qed.

Lemma count_one n dim sm simd rows s q r :
  hist_inv dim sm (new_from_str_informed N simd n dim) rows s -> scalar_metric n dim ->
  (n = Dinf -> Forall (no_nan N) rows) ->
  length q = dim -> all_finite N q -> nle r (nadd nzero (neps N)) = false ->
  within_count N nat (k_dim N s) (k_d N s) (k_tree N s) q r
  = Some (Some (length (brute_within N nat (metric_of n) (indexed rows) q r))).
Proof.
  intros H SM NN Lq Fq Hr. unfold within_count.
  rewrite Hr, (existsb_nonfinite q Fq), (hi_d _ _ _ _ _ H), (hi_dim _ _ _ _ _ H), (scalar_to_DIST simd n dim SM).
  cbn [orb]. pose proof (good_of_rows n _ _ _ _ _ H NN) as G. pose proof (hi_wf _ _ _ _ _ H) as W.
  rewrite (count_within_loop_ok N laws nat (metric_of n) dim q r Lq Fq (size N nat (k_tree N s))
              [(nminv N, k_tree N s)] 0).
  2:{ simpl. lia. }
  2:{ constructor; [|constructor]. now apply root_ok. }
  simpl. rewrite app_nil_r. do 2 f_equal.
  rewrite <- (Permutation_length (brute_perm (metric_of n) _ _ q r (hist_stored _ _ _ _ _ H))).
  rewrite <- brute_of_hits, !map_length. reflexivity.
Qed.

Lemma traverse_forall2 {X Y} (f : X -> option Y) (R : X -> Y -> Prop) xs :
  (forall x, In x xs -> exists y, f x = Some y /\ R x y) ->
  exists ys, traverse f xs = Some ys /\ Forall2 R xs ys.
Proof.
  induction xs as [|x xs IH]; intros H; simpl.
  - exists []. auto.
  - destruct (H x) as (y & -> & Ry); [left; reflexivity|].
    destruct IH as (ys & -> & Rys); [intros z Hz; apply H; right; exact Hz|]. eauto.
Qed.

Lemma Forall2_imp {X Y} (R R' : X -> Y -> Prop) xs ys :
  (forall x y, R x y -> R' x y) -> Forall2 R xs ys -> Forall2 R' xs ys.
Proof. intros H. induction 1; constructor; auto. Qed.

Lemma Forall2_len {X Y} (R : X -> Y -> Prop) xs ys : Forall2 R xs ys -> length xs = length ys.
Proof. induction 1; simpl; congruence. Qed.

Lemma map_rep {X Y} (f : X -> Y) x n : map f (repeat x n) = repeat (f x) n.
Proof. induction n; simpl; congruence. Qed.

Lemma Forall2_map_r {X Y Z} (R : X -> Z -> Prop) (f : Y -> Z) xs ys :
  Forall2 (fun x y => R x (f y)) xs ys -> Forall2 R xs (map f ys).
Proof. induction 1; simpl; constructor; auto. Qed.

Lemma combine_repeat {X Y} (y : Y) (xs : list X) : combine xs (repeat y (length xs)) = map (fun x => (x, y)) xs.
Proof. induction xs; simpl; congruence. Qed.

(** Query rows paired with their radii. *)
Definition queries (Q : mat N) (r : radius N) : list (list T * T) :=
  combine (mat_rows N Q) (radii N (m_rows N Q) r).

Lemma queries_scalar Q r : queries Q (Scalar N r) = map (fun p => (p, r)) (mat_rows N Q).
Proof. unfold queries. simpl. rewrite <- mat_rows_length. apply combine_repeat. Qed.

Lemma queries_length Q r : length (radii N (m_rows N Q) r) = m_rows N Q -> length (queries Q r) = m_rows N Q.
Proof. intros H. unfold queries. rewrite combine_length, mat_rows_length, H. lia. Qed.

Lemma py_within_eq sort_nb s Q r sort par dim : good_mat N dim Q ->
  length (radii N (m_rows N Q) r) = m_rows N Q -> sched_ok (m_rows N Q) par ->
  py_within N sort_nb s Q r sort par =
  match traverse (within_or_empty N sort_nb s sort) (queries Q r) with
  | None => Panic
  | Some outs => Ok (map (map (fun nb => (u32_of (nb_item nb), nb_dist nb))) outs)
  end.
Proof.
  intros G L SC. unfold py_within. rewrite (good_usable dim Q G), (chunks_exact_rows dim Q G).
  destruct r as [r|rs].
  - rewrite <- (queries_scalar Q r). rewrite run_seq; [reflexivity|]. now rewrite queries_length.
  - simpl in L. rewrite L, Nat.eqb_refl. cbn [negb].
    change (combine (mat_rows N Q) rs) with (queries Q (Vec N rs)). rewrite run_seq; [reflexivity|].
    now rewrite queries_length.
Qed.

Lemma in_queries Q r q x : In (q, x) (queries Q r) -> In q (mat_rows N Q) /\ In x (radii N (m_rows N Q) r).
Proof. intros H. split; [eapply in_combine_l, H|eapply in_combine_r, H]. Qed.

Lemma u32_small i : (BinNat.N.of_nat i < 2 ^ 32)%N -> u32_of i = BinNat.N.of_nat i.
Proof. intros H. unfold u32_of. apply BinNat.N.mod_small, H. Qed.

Lemma indexed_ids {X} (rows : list X) p : In p (indexed rows) -> fst p < length rows.
Proof. destruct p as [i x]. intros H. apply in_combine_l, in_seq in H. simpl. lia. Qed.

Lemma brute_ids m rows q r p : In p (brute_within N nat m (indexed rows) q r) -> fst p < length rows.
Proof.
  intros H. unfold brute_within in H. apply in_map_iff in H. destruct H as (x & <- & Hx).
  apply filter_In in Hx. simpl. eapply indexed_ids. apply Hx.
Qed.

Lemma within_history lib simd balanced n dim X0 Xs sort_nb Q r sort par :
  lib_ok N nat lib -> sort_ok sort_nb ->
  Forall (good_mat N dim) (X0 :: Xs) -> clean N balanced n (X0 :: Xs) -> scalar_metric n dim ->
  (BinNat.N.of_nat (length (all_rows N (X0 :: Xs))) <= 2 ^ 32)%N ->
  good_mat N dim Q -> all_finite N (m_data N Q) ->
  length (radii N (m_rows N Q) r) = m_rows N Q ->
  Forall (fun x => nle x (nadd nzero (neps N)) = false) (radii N (m_rows N Q) r) ->
  sched_ok (m_rows N Q) par ->
  exists s outs, py_history N lib simd balanced n X0 Xs = Ok s /\
    py_within N sort_nb s Q r sort par = Ok outs /\
    Forall2 (fun qr out =>
       Permutation out (map (fun p => (BinNat.N.of_nat (fst p), snd p))
                            (brute_within N nat (metric_of n) (stored N (X0 :: Xs)) (fst qr) (snd qr))) /\
       (sort = true -> StronglySorted (fun a b => nle (snd a) (snd b) = true) out))
      (queries Q r) outs.
Proof.
  intros LO SO G C SM Cap GQ FQ LR RR SC.
  destruct (py_history_ok lib simd balanced n n dim X0 Xs LO G C) as (s & E & H).
  pose proof (clean_rows balanced n dim _ G C) as NN.
  exists s. rewrite (py_within_eq sort_nb s Q r sort par dim GQ LR SC).
  destruct (traverse_forall2 (within_or_empty N sort_nb s sort)
    (fun qr nbs => Permutation (map nb_pair nbs)
        (brute_within N nat (metric_of n) (stored N (X0 :: Xs)) (fst qr) (snd qr)) /\
       (sort = true -> StronglySorted (fun a b => nle (nb_dist a) (nb_dist b) = true) nbs))
    (queries Q r)) as (outs & Eo & Fo).
  { intros [q x] Hq. apply in_queries in Hq. destruct Hq as [Hq Hx]. cbn [fst snd].
    eapply within_one; try eassumption.
    - eapply mat_rows_dim; eassumption.
    - unfold all_finite in *. rewrite Forall_forall in *. intros y Hy. apply FQ.
      eapply mat_rows_incl; eassumption.
    - rewrite Forall_forall in RR. now apply RR. }
  rewrite Eo. eexists. split; [exact E|]. split; [reflexivity|].
  apply Forall2_map_r. eapply Forall2_imp; [|exact Fo]. intros [q x] nbs [P S]. cbn [fst snd] in *. split.
  - assert (EQ : map (fun nb : NB => (u32_of (nb_item nb), nb_dist nb)) nbs
                 = map (fun p => (BinNat.N.of_nat (fst p), snd p)) (map nb_pair nbs)).
    { rewrite map_map. apply map_ext_in. intros nb Hnb. unfold nb_pair. cbn [fst snd]. f_equal.
      apply u32_small.
      assert (IN : In (nb_pair nb) (brute_within N nat (metric_of n) (stored N (X0 :: Xs)) q x)).
      { eapply Permutation_in; [exact P|]. now apply in_map. }
      apply brute_ids in IN. unfold nb_pair in IN. cbn [fst] in IN. lia. }
    rewrite EQ. apply Permutation_map, P.
  - intros Es. specialize (S Es). clear - S. induction S as [|a l S IH F]; simpl; constructor; [exact IH|].
    clear - F. induction F; simpl; constructor; auto.
Qed.

Lemma count_history lib simd balanced n dim X0 Xs Q r par :
  lib_ok N nat lib ->
  Forall (good_mat N dim) (X0 :: Xs) -> clean N balanced n (X0 :: Xs) -> scalar_metric n dim ->
  (Z.of_nat (length (all_rows N (X0 :: Xs))) < 2 ^ 31)%Z ->
  good_mat N dim Q -> all_finite N (m_data N Q) ->
  length (radii N (m_rows N Q) r) = m_rows N Q ->
  Forall (fun x => nle x (nadd nzero (neps N)) = false) (radii N (m_rows N Q) r) ->
  sched_ok (m_rows N Q) par ->
  exists s, py_history N lib simd balanced n X0 Xs = Ok s /\
    py_within_count N s Q r par =
      Ok (map (fun qr => Z.of_nat (length (brute_within N nat (metric_of n) (stored N (X0 :: Xs)) (fst qr) (snd qr))))
              (queries Q r)).
Proof.
  intros LO G C SM Cap GQ FQ LR RR SC.
  destruct (py_history_ok lib simd balanced n n dim X0 Xs LO G C) as (s & E & H).
  pose proof (clean_rows balanced n dim _ G C) as NN.
  exists s. split; [exact E|]. unfold py_within_count.
  rewrite (good_usable dim Q GQ), (chunks_exact_rows dim Q GQ).
  set (one := fun pr0 : list T * T => _).
  assert (TR : traverse one (queries Q r) = Some (map (fun qr => Z.of_nat (length (brute_within N nat (metric_of n) (stored N (X0 :: Xs)) (fst qr) (snd qr)))) (queries Q r))).
  { apply traverse_spec. apply Forall2_map_r.
    assert (AL : forall qr, In qr (queries Q r) -> one qr = Some (Z.of_nat (length (brute_within N nat (metric_of n) (stored N (X0 :: Xs)) (fst qr) (snd qr))))).
    { intros [q x] Hq. apply in_queries in Hq. destruct Hq as [Hq Hx]. unfold one. cbn [fst snd].
      rewrite (count_one n dim _ simd (all_rows N (X0 :: Xs)) s q x H SM NN).
      - f_equal. unfold i32_of_u32.
        assert (length (brute_within N nat (metric_of n) (indexed (all_rows N (X0 :: Xs))) q x)
                <= length (all_rows N (X0 :: Xs))).
        { unfold brute_within. rewrite map_length.
          assert (FL : forall (f : nat * list T -> bool) l, length (filter f l) <= length l).
          { intros f l. induction l as [|a l IH]; simpl; [lia|]. destruct (f a); simpl; lia. }
          etransitivity; [apply FL|]. unfold indexed. rewrite combine_length, seq_length. lia. }
        fold (stored N (X0 :: Xs)) in *. rewrite Z.mod_small by lia.
        destruct (Z.ltb_spec (Z.of_nat (length (brute_within N nat (metric_of n) (stored N (X0 :: Xs)) q x))) (2 ^ 31)); [reflexivity|lia].
      - eapply mat_rows_dim; eassumption.
      - unfold all_finite in *. rewrite Forall_forall in *. intros y Hy. apply FQ.
        eapply mat_rows_incl; eassumption.
      - rewrite Forall_forall in RR. now apply RR. }
    revert AL. generalize (queries Q r) as l. induction l as [|a l IH]; intros AL; constructor.
    - apply AL. left. reflexivity.
    - apply IH. intros qr Hqr. apply AL. right. exact Hqr. }
  destruct r as [r|rs].
  - rewrite <- (queries_scalar Q r). rewrite run_seq by (now rewrite queries_length). now rewrite TR.
  - simpl in LR. rewrite LR, Nat.eqb_refl. cbn [negb].
    change (combine (mat_rows N Q) rs) with (queries Q (Vec N rs)).
    rewrite run_seq by (now rewrite queries_length). now rewrite TR.
Qed.

(** ** k nearest neighbours *)
Lemma knn_one n dim sm simd rows s k q maxb eps :
  hist_inv dim sm (new_from_str_informed N simd n dim) rows s -> scalar_metric n dim ->
  (n = Dinf -> Forall (no_nan N) rows) ->
  length q = dim -> all_finite N q -> 0 < k -> nle nzero eps = true ->
  exists nbs, knn_bounded_unchecked N nat (k_dim N s) (k_d N s) (k_tree N s) k q maxb eps = Some nbs /\
    knn_answer N nat (metric_of n) (indexed rows) k q maxb eps (map nb_pair nbs).
Proof.
  intros H SM NN Lq Fq Hk He.
  rewrite (hi_d _ _ _ _ _ H), (hi_dim _ _ _ _ _ H), (scalar_to_DIST simd n dim SM).
  pose proof (good_of_rows n _ _ _ _ _ H NN) as G. pose proof (hi_wf _ _ _ _ _ H) as W.
  destruct (knn_unchecked_ok N laws nat (metric_of n) dim k q maxb eps Lq Fq Hk He (k_tree N s) W G)
    as (ch & E & S & Len & Mx & rest & P & Ex).
  set (m := metric_of n) in *.
  exists (map (mkNB N nat (to_DIST N m) q) ch). split; [exact E|].
  assert (EQ : map nb_pair (map (mkNB N nat (to_DIST N m) q) ch)
               = map (fun p => (fst p, spec_dist N m (snd p) q)) (map pr ch)).
  { rewrite !map_map. apply map_ext. intros l. unfold nb_pair, mkNB, pr. simpl. now rewrite dist_spec. }
  rewrite EQ. exists (map pr ch), (map pr rest).
  split; [rewrite <- map_app, <- (Permutation_map pr P); symmetry; eapply hist_stored, H|].
  split; [reflexivity|]. rewrite map_map. cbn [fst snd].
  split; [|split; [now rewrite map_length|split]].
  - clear - S. unfold sorted_leaves in S. induction S as [|a l S IH F]; simpl; constructor; [exact IH|].
    clear - F. induction F as [|b l Hb F IH]; simpl; constructor; auto. simpl.
    unfold D in Hb. rewrite !dist_spec in Hb. exact Hb.
  - clear - Mx. induction Mx as [|b l Hb F IH]; simpl; constructor; auto. simpl.
    unfold D in Hb. rewrite !dist_spec in Hb. exact Hb.
  - intros p Hp Hx. apply in_map_iff in Hp. destruct Hp as (l & <- & Hl). unfold pr in Hx. cbn [snd] in *.
    rewrite Forall_forall in Ex. specialize (Ex l Hl). unfold excl, D in Ex. rewrite dist_spec in Ex.
    destruct (Ex Hx) as [E1 E2]. rewrite map_length. split; [exact E1|].
    unfold pr. cbn [snd fst]. clear - E2. induction E2 as [|b l0 Hb F IH]; simpl; constructor; auto. simpl.
    rewrite dist_spec in Hb. exact Hb.
Qed.

Lemma reshape_flat {X} k : forall (rows : list (list X)), Forall (fun r => length r = k) rows ->
  reshape (length rows) k (concat rows) = Some rows.
Proof.
  intros rows F. unfold reshape.
  assert (L : length (concat rows) = length rows * k).
  { induction F as [|r rows Hr F IH]; simpl; [reflexivity|]. rewrite app_length, IH, Hr. lia. }
  rewrite L, Nat.eqb_refl. f_equal. clear L.
  induction F as [|r rows Hr F IH]; [reflexivity|]. cbn [length concat]. f_equal.
  - rewrite firstn_app, Hr, Nat.sub_diag, firstn_O, app_nil_r. rewrite <- Hr. apply firstn_all.
  - rewrite skipn_app, Hr, Nat.sub_diag. rewrite (skipn_all2 r) by lia. cbn [skipn app]. exact IH.
Qed.

Lemma knn_history lib simd balanced n dim X0 Xs Q k maxb eps par :
  lib_ok N nat lib ->
  Forall (good_mat N dim) (X0 :: Xs) -> clean N balanced n (X0 :: Xs) -> scalar_metric n dim ->
  (BinNat.N.of_nat (length (all_rows N (X0 :: Xs))) <= 2 ^ 32)%N ->
  good_mat N dim Q -> all_finite N (m_data N Q) -> 0 < k -> nle nzero eps = true ->
  sched_ok (m_rows N Q) par ->
  exists s dm im, py_history N lib simd balanced n X0 Xs = Ok s /\
    py_knn N s Q k eps maxb par = Ok (dm, im) /\
    exists answers,
      Forall2 (fun q out => knn_answer N nat (metric_of n) (stored N (X0 :: Xs)) k q maxb eps out)
              (mat_rows N Q) answers /\
      dm = map (fun out => map snd out ++ repeat (ninf N) (k - length out)) answers /\
      im = map (fun out => map (fun p => BinNat.N.of_nat (fst p)) out ++ repeat u32_max (k - length out)) answers.
Proof.
  intros LO G C SM Cap GQ FQ Hk He SC.
  destruct (py_history_ok lib simd balanced n n dim X0 Xs LO G C) as (s & E & H).
  pose proof (clean_rows balanced n dim _ G C) as NN.
  exists s. unfold py_knn. rewrite (good_usable dim Q GQ), (chunks_exact_rows dim Q GQ).
  destruct (Nat.ltb_spec k 1); [lia|]. rewrite (hi_dim _ _ _ _ _ H).
  assert (Hc : m_cols N Q = dim) by (destruct GQ; tauto). rewrite Hc, Nat.eqb_refl. cbn [orb negb].
  rewrite run_seq by (now rewrite mat_rows_length).
  rewrite <- (hi_dim _ _ _ _ _ H).
  destruct (traverse_forall2
     (fun pt => knn_bounded_unchecked N nat (k_dim N s) (k_d N s) (k_tree N s) k pt maxb eps)
     (fun q nbs => knn_answer N nat (metric_of n) (stored N (X0 :: Xs)) k q maxb eps (map nb_pair nbs))
     (mat_rows N Q)) as (outs & Eo & Fo).
  { intros q Hq. eapply knn_one; try eassumption.
    - rewrite (mat_rows_dim dim Q q GQ Hq). reflexivity.
    - unfold all_finite in *. rewrite Forall_forall in *. intros y Hy. apply FQ.
      eapply mat_rows_incl; eassumption. }
  rewrite Eo.
  assert (PADL : Forall (fun nbs : list NB => length (pad N k nbs) = k) outs).
  { clear - Fo. induction Fo as [|q nbs l l' K F IH]; constructor; auto.
    destruct K as (ch & rest & _ & _ & _ & Len & _). rewrite map_length in Len.
    unfold pad. rewrite app_length, map_length, repeat_length. lia. }
  assert (LEN : length outs = m_rows N Q).
  { rewrite <- mat_rows_length. symmetry. eapply Forall2_len, Fo. }
  assert (FM : forall (Y : Type) (g : T * BinNums.N -> Y), reshape (m_rows N Q) k (map g (flat_map (pad N k) outs))
             = Some (map (fun nbs => map g (pad N k nbs)) outs)).
  { intros Y g. rewrite flat_map_concat_map, concat_map, map_map, <- LEN.
    rewrite <- (map_length (fun nbs => map g (pad N k nbs)) outs) at 1.
    apply reshape_flat. apply Forall_forall. intros r Hr. apply in_map_iff in Hr.
    destruct Hr as (nbs & <- & Hn). rewrite map_length. rewrite Forall_forall in PADL. now apply PADL. }
  rewrite !FM. do 2 eexists. split; [exact E|]. split; [reflexivity|].
  exists (map (map nb_pair) outs). split; [apply Forall2_map_r, Fo|].
  split; rewrite map_map; apply map_ext_in; intros nbs Hn.
  - rewrite map_length. unfold pad. rewrite map_app, !map_map, map_rep. cbn [fst].
    assert (length nbs <= k).
    { rewrite Forall_forall in PADL. specialize (PADL nbs Hn). unfold pad in PADL.
      rewrite app_length, map_length, repeat_length in PADL. lia. }
    replace (k - length nbs + (length nbs - k)) with (k - length nbs) by lia. reflexivity.
  - rewrite map_length. unfold pad. rewrite map_app, !map_map, map_rep. cbn [snd].
    assert (length nbs <= k).
    { rewrite Forall_forall in PADL. specialize (PADL nbs Hn). unfold pad in PADL.
      rewrite app_length, map_length, repeat_length in PADL. lia. }
    replace (k - length nbs + (length nbs - k)) with (k - length nbs) by lia. f_equal.
    apply map_ext_in. intros nb Hnb. unfold nb_pair. cbn [fst]. apply u32_small.
    assert (K : exists q, knn_answer N nat (metric_of n) (stored N (X0 :: Xs)) k q maxb eps (map nb_pair nbs)).
    { clear - Fo Hn. induction Fo as [|q0 nbs0 l l' K F IH]; [contradiction|].
      destruct Hn as [->|Hn]; eauto. }
    destruct K as (q & ch & rest & P & EQ & _).
    assert (IN : In (nb_pair nb) (map nb_pair nbs)) by now apply in_map.
    rewrite EQ in IN. apply in_map_iff in IN. destruct IN as (p & Ep & Hp).
    assert (IP : In p (stored N (X0 :: Xs))).
    { eapply Permutation_in; [symmetry; exact P|]. apply in_or_app. auto. }
    apply indexed_ids in IP. injection Ep as Ep _. rewrite <- Ep. lia.
Qed.

(** ** No panics, any metric, any query values *)
Lemma knn_total dim sm d rows s k q maxb eps : hist_inv dim sm d rows s -> length q = dim -> 0 < k ->
  exists nbs, knn_bounded_unchecked N nat (k_dim N s) (k_d N s) (k_tree N s) k q maxb eps = Some nbs /\
    length nbs <= k /\ StronglySorted (fun a b => nle (nb_dist a) (nb_dist b) = true) nbs /\
    Forall (fun nb => nle (nb_dist nb) maxb = true) nbs /\
    exists chosen rest, Permutation (indexed rows) (chosen ++ rest) /\
      map nb_pair nbs = map (fun p => (fst p, dist N d (snd p) q)) chosen.
Proof.
  intros H Lq Hk. rewrite (hi_d _ _ _ _ _ H), (hi_dim _ _ _ _ _ H).
  destruct (knn_loop_any N laws nat dim d q Lq k maxb eps Hk (size N nat (k_tree N s)) [(nminv N, k_tree N s)] [] [])
    as (ch & E & S & Len & Mx & rest & P).
  { simpl. lia. }
  { constructor; [exact (hi_wf _ _ _ _ _ H)|constructor]. }
  { split; [constructor|]. split; [simpl; lia|]. split; [constructor|]. exists []. constructor. }
  exists (map (mkNB N nat d q) ch). split; [exact E|]. split; [now rewrite map_length|].
  split; [|split].
  - clear - S. induction S as [|a l S IH F]; simpl; constructor; [exact IH|].
    clear - F. induction F; simpl; constructor; auto.
  - clear - Mx. induction Mx; simpl; constructor; auto.
  - exists (map pr ch), (map pr rest). split.
    + simpl in P. rewrite app_nil_r in P. rewrite <- map_app, <- (Permutation_map pr P). symmetry.
      eapply hist_stored, H.
    + rewrite !map_map. reflexivity.
Qed.

Lemma within_total dim sm d rows s sort_nb q r sort : hist_inv dim sm d rows s -> sort_ok sort_nb ->
  length q = dim ->
  exists nbs, within_or_empty N sort_nb s sort (q, r) = Some nbs /\
    Forall (fun nb => nle (nb_dist nb) r = true) nbs /\
    (exists chosen rest, Permutation (indexed rows) (chosen ++ rest) /\
      Permutation (map nb_pair nbs) (map (fun p => (fst p, dist N d (snd p) q)) chosen)) /\
    within_count N nat (k_dim N s) (k_d N s) (k_tree N s) q r =
      Some (if nle r (nadd nzero (neps N)) || existsb (fun x => negb (nfinite N x)) q then None
            else Some (length nbs)).
Proof.
  intros H SO Lq. unfold within_or_empty, within, within_count. cbn [fst snd].
  rewrite (hi_d _ _ _ _ _ H), (hi_dim _ _ _ _ _ H).
  destruct (nle r (nadd nzero (neps N)) || existsb (fun x => negb (nfinite N x)) q).
  - exists []. split; [reflexivity|]. split; [constructor|]. split; [|reflexivity].
    exists [], (indexed rows). simpl. auto.
  - destruct (within_loop_any N nat dim d q Lq r (size N nat (k_tree N s)) [(nminv N, k_tree N s)] [])
      as (hit & rest & E & Ec & P & Hh).
    { simpl. lia. }
    { constructor; [exact (hi_wf _ _ _ _ _ H)|constructor]. }
    rewrite E. simpl in Ec. rewrite Ec. simpl. simpl in P. rewrite app_nil_r in P.
    assert (PE : Permutation (if sort then sort_nb (map (mkNB N nat d q) hit) else map (mkNB N nat d q) hit)
                             (map (mkNB N nat d q) hit)).
    { destruct sort; [apply SO|reflexivity]. }
    eexists. split; [reflexivity|]. split; [|split].
    + eapply Forall_perm; [symmetry; exact PE|]. clear - Hh. induction Hh; simpl; constructor; auto.
    + exists (map pr hit), (map pr rest). split.
      * rewrite <- map_app, <- (Permutation_map pr P). symmetry. eapply hist_stored, H.
      * rewrite (Permutation_map nb_pair PE), !map_map. reflexivity.
    + rewrite (Permutation_length PE), map_length. reflexivity.
Qed.

Lemma spec_nonneg n dim rows q : Forall (fun r => length r = dim) rows -> (n = Dinf -> Forall (no_nan N) rows) ->
  length q = dim -> all_finite N q ->
  forall p, In p (indexed rows) -> nnan (spec_dist N (metric_of n) (snd p) q) = false ->
    nle nzero (spec_dist N (metric_of n) (snd p) q) = true.
Proof.
  intros RD NN Lq Fq [i r] Hp Hn. cbn [snd] in *. apply in_combine_r in Hp.
  destruct (D_nonneg N laws nat (metric_of n) dim q {| item := 0; row_vec := r |} Lq Fq) as [H|H].
  - split; cbn [row_vec].
    + rewrite Forall_forall in RD. now apply RD.
    + intros E. assert (En : n = Dinf) by (destruct n; try discriminate; reflexivity).
      specialize (NN En). rewrite Forall_forall in NN. exact (NN r Hp).
  - unfold D in H. cbn [row_vec] in H. rewrite dist_spec in H. congruence.
  - unfold D in H. cbn [row_vec] in H. rewrite dist_spec in H. exact H.
Qed.

Lemma rows_dim dim Xs : Forall (good_mat N dim) Xs -> Forall (fun r => length r = dim) (all_rows N Xs).
Proof.
  intros G. apply Forall_forall. intros r Hr. apply in_flat_map in Hr. destruct Hr as (X & HX & Hr).
  rewrite Forall_forall in G. eapply mat_rows_dim; [apply G, HX|exact Hr].
Qed.

Lemma knn_history_exact lib simd balanced n dim X0 Xs Q k maxb par :
  lib_ok N nat lib ->
  Forall (good_mat N dim) (X0 :: Xs) -> clean N balanced n (X0 :: Xs) -> scalar_metric n dim ->
  (BinNat.N.of_nat (length (all_rows N (X0 :: Xs))) <= 2 ^ 32)%N ->
  good_mat N dim Q -> all_finite N (m_data N Q) -> 0 < k ->
  sched_ok (m_rows N Q) par ->
  exists s dm im, py_history N lib simd balanced n X0 Xs = Ok s /\
    py_knn N s Q k nzero maxb par = Ok (dm, im) /\
    exists answers,
      Forall2 (fun q out => knn_exact N nat (metric_of n) (stored N (X0 :: Xs)) k q maxb out)
              (mat_rows N Q) answers /\
      dm = map (fun out => map snd out ++ repeat (ninf N) (k - length out)) answers /\
      im = map (fun out => map (fun p => BinNat.N.of_nat (fst p)) out ++ repeat u32_max (k - length out)) answers.
Proof.
  intros LO G C SM Cap GQ FQ Hk SC.
  destruct (knn_history lib simd balanced n dim X0 Xs Q k maxb nzero par LO G C SM Cap GQ FQ Hk)
    as (s & dm & im & E & Ek & ans & F & Ed & Ei).
  { apply (le_refl N laws), (finite_nan N laws), (zero_finite N laws). }
  { exact SC. }
  exists s, dm, im. split; [exact E|]. split; [exact Ek|]. exists ans. split; [|split; assumption].
  assert (FR : Forall (fun q => length q = dim /\ all_finite N q) (mat_rows N Q)).
  { apply Forall_forall. intros q Hq. split; [eapply mat_rows_dim; eassumption|].
    unfold all_finite in *. rewrite Forall_forall in *. intros y Hy. apply FQ. eapply mat_rows_incl; eassumption. }
  clear - laws F FR G C. induction F as [|q out qs outs K F IH]; constructor.
  - inversion FR as [|? ? [Lq Fq] FR']; subst.
    eapply answer_exact; [exact laws| |reflexivity|exact K].
    apply (spec_nonneg n (length q)).
    + now apply rows_dim.
    + eapply clean_rows; eassumption.
    + reflexivity.
    + exact Fq.
  - inversion FR; subst. now apply IH.
Qed.

(** ** Two histories with the same rows *)
Lemma indexed_snd {X} (l : list X) : map snd (indexed l) = l.
Proof.
  unfold indexed. assert (G : forall s, map snd (combine (seq s (length l)) l) = l).
  { induction l as [|x l IH]; intros s; simpl; [reflexivity|]. now rewrite IH. }
  apply G.
Qed.

Lemma indexed_nth {X} (l : list X) p : In p (indexed l) -> nth_error l (fst p) = Some (snd p).
Proof.
  assert (G : forall s, In p (combine (seq s (length l)) l) -> s <= fst p /\ nth_error l (fst p - s) = Some (snd p)).
  { induction l as [|x l IH]; intros s H; simpl in H; [contradiction|]. destruct H as [<-|H].
    - simpl. rewrite Nat.sub_diag. auto.
    - apply IH in H. destruct H as [H1 H2]. split; [lia|].
      replace (fst p - s) with (S (fst p - S s)) by lia. exact H2. }
  intros H. apply (G 0) in H. rewrite Nat.sub_0_r in H. tauto.
Qed.

(** brute force answers, each id replaced by the row it denotes, depend only on the rows *)
Lemma brute_rows m rows q r :
  map (fun p => (nth_error rows (fst p), snd p)) (brute_within N nat m (indexed rows) q r) =
  map (fun v => (Some v, spec_dist N m v q)) (filter (fun v => nle (spec_dist N m v q) r) rows).
Proof.
  unfold brute_within. rewrite map_map. cbn [fst snd].
  assert (G : forall l, (forall p, In p l -> nth_error rows (fst p) = Some (snd p)) ->
    map (fun p => (nth_error rows (fst p), spec_dist N m (snd p) q)) (filter (fun p => nle (spec_dist N m (snd p) q) r) l)
    = map (fun v => (Some v, spec_dist N m v q)) (filter (fun v => nle (spec_dist N m v q) r) (map snd l))).
  { induction l as [|p l IH]; intros H; simpl; [reflexivity|].
    destruct (nle (spec_dist N m (snd p) q) r); simpl.
    - f_equal; [f_equal; apply H; left; reflexivity|]. apply IH. intros x Hx. apply H. right. exact Hx.
    - apply IH. intros x Hx. apply H. right. exact Hx. }
  rewrite G, indexed_snd; [reflexivity|]. intros p Hp. now apply indexed_nth.
Qed.

Lemma brute_same_rows m rows1 rows2 q r : Permutation rows1 rows2 ->
  Permutation (map (fun p => (nth_error rows1 (fst p), snd p)) (brute_within N nat m (indexed rows1) q r))
              (map (fun p => (nth_error rows2 (fst p), snd p)) (brute_within N nat m (indexed rows2) q r)).
Proof. intros P. rewrite !brute_rows. apply Permutation_map, filter_perm, P. Qed.

Lemma Forall2_nth {X Y} (R : X -> Y -> Prop) xs ys i y : Forall2 R xs ys -> nth_error ys i = Some y ->
  exists x, nth_error xs i = Some x /\ R x y.
Proof.
  intros F. revert i. induction F as [|a b xs ys Hab F IH]; intros [|i] H; simpl in *; try discriminate.
  - injection H as <-. eauto.
  - now apply IH.
Qed.
Lemma Forall2_nth_l {X Y} (R : X -> Y -> Prop) xs ys i x : Forall2 R xs ys -> nth_error xs i = Some x ->
  exists y, nth_error ys i = Some y /\ R x y.
Proof.
  intros F. revert i. induction F as [|a b xs ys Hab F IH]; intros [|i] H; simpl in *; try discriminate.
  - injection H as <-. eauto.
  - now apply IH.
Qed.

(** ** Histories in which rejected [add]s are caught *)
Definition py_session (lib : SplitLib N nat) (s0 : pyres (PyKDT N)) (Xs : list (mat N)) : pyres (PyKDT N) :=
  fold_left (fun s X => match s with
                        | Ok s => match py_add N lib s X with Err => Ok s | r => r end
                        | Err => Err | Panic => Panic end) Xs s0.

Definition accepted (dim : nat) (X : mat N) : bool := usable N X && (m_cols N X =? dim).

Lemma py_add_dim lib s X s' : py_add N lib s X = Ok s' -> k_dim N s' = k_dim N s.
Proof.
  unfold py_add. destruct (usable N X); [|discriminate]. destruct (negb _); [discriminate|].
  destruct (count_all _ _ _); [|discriminate]. destruct (add_all _ _ _ _ _ _ _ _); [|discriminate].
  intros [= <-]. reflexivity.
Qed.

Lemma py_add_err lib s X : py_add N lib s X = Err <-> accepted (k_dim N s) X = false.
Proof.
  unfold py_add, accepted. destruct (usable N X); [|simpl; tauto].
  destruct (m_cols N X =? k_dim N s); simpl; [|tauto].
  split; [|discriminate]. destruct (count_all _ _ _); [|discriminate].
  destruct (add_all _ _ _ _ _ _ _ _); discriminate.
Qed.

Lemma py_session_filter lib s0 Xs :
  py_session lib (Ok s0) Xs =
  fold_left (fun s X => match s with Ok s => py_add N lib s X | Err => Err | Panic => Panic end)
            (filter (accepted (k_dim N s0)) Xs) (Ok s0).
Proof.
  revert s0. induction Xs as [|X Xs IH]; intros s0; simpl; [reflexivity|].
  destruct (accepted (k_dim N s0) X) eqn:A.
  - simpl. destruct (py_add N lib s0 X) as [s1| |] eqn:E.
    + rewrite <- (py_add_dim _ _ _ _ E). rewrite (IH s1). unfold py_session. cbn [fold_left]. reflexivity.
    + apply py_add_err in E. congruence.
    + clear. unfold py_session.
      assert (PP : forall (Xs : list (mat N)) g, (forall X, g Panic X = Panic) -> fold_left g Xs (@Panic (PyKDT N)) = Panic).
      { clear. induction Xs as [|X Xs IH]; intros g H; simpl; [reflexivity|]. rewrite H. now apply IH. }
      rewrite !PP by reflexivity. reflexivity.
  - apply (py_add_err lib) in A. rewrite A. apply IH.
Qed.

(** ** Parallel = sequential, for every tree state and every well-formed matrix *)
Definition shaped (X : mat N) : Prop := length (m_data N X) = m_rows N X * m_cols N X.

Lemma usable_chunks X : usable N X = true -> shaped X ->
  length (chunks_exact N (m_cols N X) (m_data N X)) = m_rows N X.
Proof.
  unfold usable, shaped. intros U S. apply andb_prop in U. destruct U as [_ U].
  destruct (Nat.eqb_spec (m_rows N X * m_cols N X) 0); [discriminate|].
  unfold chunks_exact. rewrite chunks_rows, map_length, seq_length, S. apply Nat.div_mul. nia.
Qed.

Lemma knn_par s X k eps maxb sched : shaped X -> Permutation sched (seq 0 (m_rows N X)) ->
  py_knn N s X k eps maxb (Some sched) = py_knn N s X k eps maxb None.
Proof.
  intros S P. unfold py_knn. destruct (usable N X) eqn:U; [|reflexivity].
  destruct (_ || _); [reflexivity|]. rewrite (run_seq (Some sched)); [reflexivity|].
  simpl. rewrite usable_chunks by assumption. exact P.
Qed.

Lemma within_par sort_nb s X r sort sched : shaped X -> Permutation sched (seq 0 (m_rows N X)) ->
  py_within N sort_nb s X r sort (Some sched) = py_within N sort_nb s X r sort None.
Proof.
  intros S P. unfold py_within. destruct (usable N X) eqn:U; [|reflexivity].
  destruct r as [r|rs].
  - rewrite (run_seq (Some sched)); [reflexivity|]. simpl. rewrite map_length, usable_chunks by assumption. exact P.
  - destruct (Nat.eqb_spec (length rs) (m_rows N X)) as [E|]; cbn [negb]; [|reflexivity].
    rewrite (run_seq (Some sched)); [reflexivity|]. simpl.
    rewrite combine_length, usable_chunks, E, Nat.min_id by assumption. exact P.
Qed.

Lemma count_par s X r sched : shaped X -> Permutation sched (seq 0 (m_rows N X)) ->
  py_within_count N s X r (Some sched) = py_within_count N s X r None.
Proof.
  intros S P. unfold py_within_count. destruct (usable N X) eqn:U; [|reflexivity].
  destruct r as [r|rs].
  - rewrite (run_seq (Some sched)); [reflexivity|]. simpl. rewrite map_length, usable_chunks by assumption. exact P.
  - destruct (Nat.eqb_spec (length rs) (m_rows N X)) as [E|]; cbn [negb]; [|reflexivity].
    rewrite (run_seq (Some sched)); [reflexivity|]. simpl.
    rewrite combine_length, usable_chunks, E, Nat.min_id by assumption. exact P.
Qed.

(** ** Total queries at the matrix level *)
Lemma knn_no_panic dim sm d rows s Q k eps maxb par : hist_inv dim sm d rows s ->
  shaped Q -> sched_ok (m_rows N Q) par ->
  (accepted dim Q = true /\ 0 < k /\
     exists dm im, py_knn N s Q k eps maxb par = Ok (dm, im) /\
       length dm = m_rows N Q /\ length im = m_rows N Q /\
       Forall (fun r => length r = k) dm /\ Forall (fun r => length r = k) im)
  \/ ((accepted dim Q = false \/ k = 0) /\ py_knn N s Q k eps maxb par = Err).
Proof.
  intros H SQ SC. unfold accepted, py_knn. rewrite (hi_dim _ _ _ _ _ H).
  destruct (usable N Q) eqn:U; [|right; auto].
  destruct (Nat.eqb_spec (m_cols N Q) dim) as [Hc|]; [|right; cbn [negb]; rewrite orb_true_r; auto].
  destruct (Nat.ltb_spec k 1); [right; split; [right; lia|reflexivity]|]. cbn [orb negb andb].
  left. split; [reflexivity|]. split; [lia|].
  assert (GQ : good_mat N dim Q).
  { unfold usable in U. apply andb_prop in U. destruct U as [U1 U2].
    destruct (Nat.eqb_spec (m_rows N Q * m_cols N Q) 0); [discriminate|].
    repeat split; try assumption; nia. }
  rewrite (chunks_exact_rows dim Q GQ), run_seq by (now rewrite mat_rows_length).
  destruct (traverse_forall2
     (fun pt => knn_bounded_unchecked N nat dim (k_d N s) (k_tree N s) k pt maxb eps)
     (fun q nbs => length nbs <= k) (mat_rows N Q)) as (outs & Eo & Fo).
  { intros q Hq. rewrite <- (hi_dim _ _ _ _ _ H).
    destruct (knn_total dim sm d rows s k q maxb eps H (mat_rows_dim dim Q q GQ Hq)) as (nbs & E & L & _); [lia|eauto]. }
  rewrite Eo.
  assert (PADL : Forall (fun nbs : list NB => length (pad N k nbs) = k) outs).
  { clear - Fo. induction Fo as [|q nbs l l' K F IH]; constructor; auto.
    unfold pad. rewrite app_length, map_length, repeat_length. lia. }
  assert (LEN : length outs = m_rows N Q).
  { rewrite <- mat_rows_length. symmetry. eapply Forall2_len, Fo. }
  assert (FL : forall (Y : Type) (g : T * BinNums.N -> Y),
     Forall (fun r => length r = k) (map (fun nbs => map g (pad N k nbs)) outs)).
  { intros Y g. apply Forall_forall. intros r Hr. apply in_map_iff in Hr.
    destruct Hr as (nbs & <- & Hn). rewrite map_length. rewrite Forall_forall in PADL. now apply PADL. }
  assert (FM : forall (Y : Type) (g : T * BinNums.N -> Y), reshape (m_rows N Q) k (map g (flat_map (pad N k) outs))
             = Some (map (fun nbs => map g (pad N k nbs)) outs)).
  { intros Y g. rewrite flat_map_concat_map, concat_map, map_map, <- LEN.
    rewrite <- (map_length (fun nbs => map g (pad N k nbs)) outs) at 1.
    apply reshape_flat, FL. }
  rewrite !FM. do 2 eexists. split; [reflexivity|]. rewrite !map_length. auto.
Qed.

Lemma within_no_panic dim sm d rows s sort_nb Q r sort par : hist_inv dim sm d rows s -> sort_ok sort_nb ->
  good_mat N dim Q -> sched_ok (m_rows N Q) par -> length (radii N (m_rows N Q) r) = m_rows N Q ->
  (exists outs, py_within N sort_nb s Q r sort par = Ok outs /\ length outs = m_rows N Q) /\
  (exists cs, py_within_count N s Q r par = Ok cs /\ length cs = m_rows N Q).
Proof.
  intros H SO GQ SC LR.
  assert (QL : length (queries Q r) = m_rows N Q) by now apply queries_length.
  split.
  - rewrite (py_within_eq sort_nb s Q r sort par dim GQ LR SC).
    destruct (traverse_some (within_or_empty N sort_nb s sort) (queries Q r)) as (outs & E).
    { intros [q x] Hq. apply in_queries in Hq. destruct Hq as [Hq Hx].
      destruct (within_total dim sm d rows s sort_nb q x sort H SO (mat_rows_dim dim Q q GQ Hq)) as (nbs & E & _). eauto. }
    rewrite E. eexists. split; [reflexivity|]. rewrite map_length, <- QL.
    apply traverse_spec in E. symmetry. eapply Forall2_len, E.
  - unfold py_within_count. rewrite (good_usable dim Q GQ), (chunks_exact_rows dim Q GQ).
    set (one := fun pr0 : list T * T => _).
    destruct (traverse_some one (queries Q r)) as (outs & E).
    { intros [q x] Hq. apply in_queries in Hq. destruct Hq as [Hq Hx].
      destruct (within_total dim sm d rows s sort_nb q x sort H SO (mat_rows_dim dim Q q GQ Hq)) as (nbs & _ & _ & _ & E).
      unfold one. cbn [fst snd]. rewrite E. destruct (_ || _); eauto. }
    assert (LE : length outs = m_rows N Q).
    { rewrite <- QL. apply traverse_spec in E. symmetry. eapply Forall2_len, E. }
    destruct r as [r|rs].
    + rewrite <- (queries_scalar Q r). rewrite run_seq by (now rewrite QL). rewrite E. eauto.
    + simpl in LR. rewrite LR, Nat.eqb_refl. cbn [negb].
      change (combine (mat_rows N Q) rs) with (queries Q (Vec N rs)).
      rewrite run_seq by (now rewrite QL). rewrite E. eauto.
Qed.
End P.

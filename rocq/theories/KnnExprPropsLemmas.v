(** The statements of KnnExprProps.v: f64 instances, demonstration data, witnesses, and exact-arithmetic
    bounds for the neighbour average. *)
From Coq Require Import Bool List Arith Lia Permutation Sorted NArith ZArith Reals Lra.
From Flocq Require Import IEEE754.BinarySingleNaN.
From Verif Require Import Num F64 KdModel KdSpec KdProofs KnnUnique KdSound PyKdModel PyKdSpec PyKdProofs
  KdDemo KdPropsLemmas KnnExprModel KnnExprSpec KnnExprProofs KnnExprSem
  KnnMeanR.
Import ListNotations.

(** ** Generic demonstration library *)
Definition demo_lib_of (A : Type) : SplitLib f64_ops A := {|
  sort_key := fun p l => filter (fun x => negb (p x)) l ++ filter p l;
  sort_cmp := fun cmp l => isort cmp l;
  part_point := fun p l => pp_prefix p l;
|}.
Lemma demo_lib_of_ok A : lib_ok f64_ops A (demo_lib_of A).
Proof.
  repeat split; simpl.
  - intros p l. induction l as [|x l IH]; simpl; [constructor|]. destruct (p x); simpl.
    + rewrite <- Permutation_middle. now constructor.
    + now constructor.
  - intros c l. apply isort_perm.
  - intros p l. induction l as [|x l IH]; simpl; [lia|]. destruct (p x); simpl; lia.
Qed.
Lemma demo_sort_nb_ok : sort_nb_ok f64_ops demo_sort.
Proof. exact demo_sort_ok. Qed.

(** Running the tasks one after the other is one of the interleavings. *)
Lemma interleaving_nil_front {X} (tasks : list (list X)) trace : interleaving tasks trace -> interleaving ([] :: tasks) trace.
Proof.
  induction 1 as [tasks F | before x t after trace I IH].
  - constructor. constructor; [reflexivity|exact F].
  - apply (il_step ([] :: before)). exact IH.
Qed.
Lemma interleaving_concat {X} (tasks : list (list X)) : interleaving tasks (concat tasks).
Proof.
  induction tasks as [|t tasks IH]; [constructor; constructor|]. cbn [concat].
  induction t as [|x t IHt]; [now apply interleaving_nil_front|]. apply (il_step []). exact IHt.
Qed.

(** Points 0, 1, 3, 10 and a null, on a line (second coordinate 0), the first column in two chunks. *)
Definition demo_cols : list (column f64) :=
  [[[Some (fi 0); Some (fi 1)]; [Some (fi 3); Some (fi 10); None]];
   [[Some (fi 0); Some (fi 0); Some (fi 0); Some (fi 0); Some (fi 0)]]].
Definition demo_trace (cols : list (column f64)) : list (nat * f64) := concat (all_writes f64_ops (length cols) 0 cols).
Lemma demo_trace_ok cols : interleaving (all_writes f64_ops (length cols) 0 cols) (demo_trace cols).
Proof. apply interleaving_concat. Qed.
Lemma demo_table : table f64_ops 5 demo_cols.
Proof. split; [discriminate|]. repeat constructor. Qed.
Definition demo_par : parallelism := Some (2, [1; 0]).
Lemma demo_par_ok : par_ok demo_par.
Proof. split; [lia|]. apply perm_swap. Qed.

Definition obs_ids {A B} (r : pyres (list (option (list (A * B))))) : option (list (option (list A))) :=
  match r with Ok o => Some (map (option_map (map fst)) o) | _ => None end.
Lemma obs_ids_v {A B} (r : pyres (list (option (list (A * B))))) o :
  obs_ids r = Some o -> exists out, r = Ok out /\ map (option_map (map fst)) out = o.
Proof. destruct r as [v| |]; try discriminate. intros [= <-]. eauto. Qed.

Lemma knn_case : exists out,
  query_knn_ptwise f64_ops (demo_lib_of nat) no_simd Dl2 [10; 11; 12; 13; 14] None None demo_cols
    (demo_trace demo_cols) 1 (nzero f64_ops) (fi 100) demo_par = Ok out /\
  map (option_map (map fst)) out = [Some [10; 11]; Some [11; 10]; Some [12; 11]; Some [13; 12]; None] /\
  map fst (candidates f64_ops [10; 11; 12; 13; 14] None demo_cols) = [10; 11; 12; 13].
Proof.
  destruct (obs_ids_v (query_knn_ptwise f64_ops (demo_lib_of nat) no_simd Dl2 [10; 11; 12; 13; 14] None None demo_cols
    (demo_trace demo_cols) 1 (nzero f64_ops) (fi 100) demo_par)
    [Some [10; 11]; Some [11; 10]; Some [12; 11]; Some [13; 12]; None]) as (out & E & O); [vm_compute; reflexivity|].
  exists out. split; [exact E|]. split; [exact O|reflexivity].
Qed.

Lemma radius_case :
  query_radius_ptwise f64_ops (demo_lib_of nat) demo_sort no_simd Dl2 [10; 11; 12; 13; 14] demo_cols
    (demo_trace demo_cols) (fi 2) true demo_par
  = Ok [Some [10; 11]; Some [11; 10; 12]; Some [12; 11]; Some [13]; None].
Proof. vm_compute. reflexivity. Qed.
Lemma cnt_case :
  pl_nb_cnt f64_ops (demo_lib_of unit) no_simd Dl2 [Some (fi 2); Some (fi 1); None; Some (fi 100); Some (fi 1)] demo_cols
    (demo_trace demo_cols) demo_par
  = Ok [Some 2; Some 2; None; Some 4; None]%N.
Proof. vm_compute. reflexivity. Qed.

Definition obs_opt (f : T -> bool) (r : pyres (list (option T))) : option (list (option bool)) :=
  match r with Ok o => Some (map (option_map f) o) | _ => None end.
Definition feq (x y : f64) : bool := nle x y && nle y x.
Fixpoint same_col (o : list (option f64)) (v : list (option Z)) : bool :=
  match o, v with
  | [], [] => true
  | None :: o', None :: v' => same_col o' v'
  | Some x :: o', Some z :: v' => feq x (fi z) && same_col o' v'
  | _, _ => false
  end.
Definition obs_col (r : pyres (list (option T))) (v : list (option Z)) : bool :=
  match r with Ok o => same_col o v | _ => false end.
Lemma obs_col_v r v : obs_col r v = true -> exists out, r = Ok out /\ same_col out v = true.
Proof. destruct r as [o| |]; try discriminate. eauto. Qed.
Lemma kth_case : exists out,
  pl_dist_from_kth_nb f64_ops (demo_lib_of unit) no_simd Dl2 demo_cols (demo_trace demo_cols) 2 (fi 100)
    (nzero f64_ops) demo_par = Ok out /\
  same_col out [Some 3; Some 2; Some 3; Some 9; None]%Z = true.
Proof. apply obs_col_v. vm_compute. reflexivity. Qed.
Lemma avg_case : exists out,
  query_knn_avg f64_ops (demo_lib_of f64) no_simd Dl2 (map fi [10; 20; 40; 80; 0]%Z) demo_cols (demo_trace demo_cols)
    1 false (nzero f64_ops) (fi 100) demo_par = Ok out /\
  same_col out [Some 15; Some 15; Some 30; Some 60; None]%Z = true.
Proof. apply obs_col_v. vm_compute. reflexivity. Qed.

(** ** split_offsets *)
Lemma split_offsets_partition len n : 1 <= n ->
  exists chunks, split_offsets len n = Some chunks /\ length chunks = n /\
    concat (map (fun c => seq (fst c) (snd c)) chunks) = seq 0 len.
Proof.
  intros H. destruct (split_offsets_cover len n H) as (s & E & L & C). exists s. auto.
Qed.

(** ** Row-major layout *)
Lemma row_major_layout h cols trace : table f64_ops h cols ->
  interleaving (all_writes f64_ops (length cols) 0 cols) trace ->
  exists data, series_to_row_major_slice f64_ops cols trace = Ok data /\
    length data = h * length cols /\
    forall i j c, i < h -> nth_error cols j = Some c ->
      nth_error data (i * length cols + j) = Some (cell f64_ops i c).
Proof.
  intros TB I. exists (flat_map (row_at f64_ops cols) (seq 0 h)). split; [now apply row_major_ok|].
  split; [apply (flat_map_len _ _ (row_at_length f64_ops cols))|].
  intros i j c Hi Hj.
  assert (Lj : j < length cols) by (apply nth_error_Some; congruence).
  assert (G : forall s k, k < h -> nth_error (flat_map (row_at f64_ops cols) (seq s h)) (k * length cols + j)
              = nth_error (row_at f64_ops cols (s + k)) j).
  { clear - Lj. induction h as [|h IH]; intros s k Hk; [lia|]. cbn [seq flat_map]. destruct k as [|k].
    - rewrite nth_error_app1 by (rewrite row_at_length; lia). now rewrite Nat.add_0_r.
    - rewrite nth_error_app2 by (rewrite row_at_length; simpl; lia). rewrite row_at_length.
      replace (S k * length cols + j - length cols) with (k * length cols + j) by (simpl; lia).
      rewrite IH by lia. f_equal. f_equal. lia. }
  rewrite (G 0 i Hi). unfold row_at. rewrite nth_error_map, Hj. reflexivity.
Qed.

Lemma row_major_rejects cols trace :
  (cols = [] \/ exists c c', In c cols /\ In c' cols /\ length (cells c) <> length (cells c')) ->
  series_to_row_major_slice f64_ops cols trace = Err.
Proof.
  intros [->|(c & c' & Hc & Hc' & Ne)]; [reflexivity|]. destruct cols as [|c0 rest]; [destruct Hc|].
  unfold series_to_row_major_slice. destruct (forallb _ rest) eqn:E; [|reflexivity]. exfalso.
  assert (G : forall x, In x (c0 :: rest) -> length (cells x) = length (cells c0)).
  { intros x [<-|Hx]; [reflexivity|]. rewrite forallb_forall in E. now apply Nat.eqb_eq, E. }
  rewrite (G c Hc), (G c' Hc') in Ne. now apply Ne.
Qed.
Lemma row_major_case : exists data,
  series_to_row_major_slice f64_ops demo_cols (demo_trace demo_cols) = Ok data /\ length data = 10 /\
  map (nnan f64_ops) data = [false; false; false; false; false; false; false; false; true; false].
Proof.
  destruct (row_major_layout 5 demo_cols _ demo_table (demo_trace_ok demo_cols)) as (data & E & L & _).
  exists data. split; [exact E|]. split; [exact L|].
  assert (O : match series_to_row_major_slice f64_ops demo_cols (demo_trace demo_cols) with
          | Ok d => map (nnan f64_ops) d | _ => [] end
          = [false; false; false; false; false; false; false; false; true; false]) by (vm_compute; reflexivity).
  rewrite E in O. exact O.
Qed.

(** ** Rows that can never be neighbours *)
Lemma spec_dist_nan m p q : m <> MLINF -> length p = length q -> Exists (fun x => nnan f64_ops x = true) p ->
  nnan f64_ops (spec_dist f64_ops m p q) = true.
Proof.
  intros Hm L E. rewrite <- dist_spec, dist_acc.
  pose proof (zip_fold_nan f64_ops f64_laws m Hm p q (nzero f64_ops) L E) as Z.
  unfold post. destruct m; try exact Z.
  destruct (nnan f64_ops (nsqrt f64_ops (zip_fold f64_ops (acc_f f64_ops ML2) (nzero f64_ops) p q))) eqn:S; [reflexivity|].
  apply (sqrt_nan f64_ops f64_laws) in S. congruence.
Qed.
Lemma no_nan_dec p : no_nan f64_ops p \/ Exists (fun x => nnan f64_ops x = true) p.
Proof.
  induction p as [|x p IH]; [left; constructor|]. destruct (nnan f64_ops x) eqn:E.
  - right. now constructor.
  - destruct IH as [IH|IH]; [left; now constructor|right; now constructor 2].
Qed.
Lemma metric_not_inf n : n <> Dinf -> metric_of n <> MLINF.
Proof. destruct n; simpl; congruence. Qed.
Lemma candidate_len {A} ids dm cols (p : A * list f64) : In p (candidates f64_ops ids dm cols) -> length (snd p) = length cols.
Proof. unfold candidates. intros H. apply in_map_iff in H. destruct H as (x & <- & _). apply (row_at_length f64_ops). Qed.

Lemma never_neighbour {A} (lib : SplitLib f64_ops A) simd n ids dm em cols trace h k eps maxb par out i l :
  lib_ok f64_ops A lib -> table f64_ops h cols -> interleaving (all_writes f64_ops (length cols) 0 cols) trace ->
  length ids = h -> mask_fits h em -> scalar_metric n (length cols) -> n <> Dinf -> par_ok par ->
  query_knn_ptwise f64_ops lib simd n ids dm em cols trace k eps maxb par = Ok out ->
  nth_error out i = Some (Some l) ->
  forall a d, In (a, d) l -> exists j, nth_error ids j = Some a /\ mask_on dm j = true /\
    has_null f64_ops cols j = false /\ no_nan f64_ops (row_at f64_ops cols j).
Proof.
  intros LO TB I Li ME SM Nn PO E Hi a d Hin.
  destruct (Nat.ltb_spec k 1) as [K|K].
  { unfold query_knn_ptwise in E. replace (k <? 1) with true in E by (symmetry; apply Nat.ltb_lt; lia). discriminate. }
  assert (Hc : candidates f64_ops ids dm cols = [] \/ candidates f64_ops ids dm cols <> []).
  { destruct (candidates f64_ops ids dm cols); [now left|right; discriminate]. }
  destruct Hc as [Hc|Hc].
  - (* no candidate: the build of the tree panics *)
    exfalso. unfold query_knn_ptwise in E. replace (k <? 1) with false in E by (symmetry; apply Nat.ltb_ge; lia).
    assert (Hh : height f64_ops cols = h).
    { destruct TB as [NE F]. destruct cols; [congruence|]. apply Forall_inv in F. exact F. }
    rewrite Hh in E. unfold pl_knn_ptwise_w_dist in E. rewrite (row_major_ok f64_ops h cols trace TB I) in E.
    destruct TB as [NE F]. rewrite <- (filtered_candidates f64_ops dm cols ids h NE Li) in Hc.
    apply map_eq_nil in Hc. rewrite Hc in E. discriminate.
  - destruct (knn_expr_ok f64_ops f64_laws lib simd n ids dm em cols trace h k eps maxb par LO TB I Li ME SM K)
      as (out' & E' & Lo & Ho); [intros Z; congruence|exact Hc|exact PO|].
    rewrite E in E'. injection E' as <-.
    assert (Hi' : i < h) by (rewrite <- Lo; apply nth_error_Some; congruence).
    destruct (Ho i Hi') as (o & Eo & S). rewrite Hi in Eo. injection Eo as <-. unfold knn_cell_spec in S.
    destruct (mask_on em i && finite_row f64_ops (row_at f64_ops cols i) && negb (Num.nle f64_ops maxb (neps f64_ops))) in S;
      [|discriminate]. destruct S as (l' & El & ch & rest & P & El' & _ & _ & Mx & _). injection El as <-.
    rewrite El' in Hin. apply in_map_iff in Hin. destruct Hin as (p & Ep & Hp). injection Ep as <- <-.
    assert (Hcand : In p (candidates f64_ops ids dm cols)) by (rewrite P; apply in_or_app; now left).
    assert (NN : nnan f64_ops (spec_dist f64_ops (metric_of n) (snd p) (row_at f64_ops cols i)) = false).
    { rewrite Forall_forall in Mx. specialize (Mx (fst p, spec_dist f64_ops (metric_of n) (snd p) (row_at f64_ops cols i))).
      rewrite El' in Mx. apply (le_nan_l f64_ops f64_laws _ maxb), Mx.
      apply in_map_iff. now exists p. }
    pose proof (candidate_len _ _ _ _ Hcand) as Lp.
    unfold candidates in Hcand. apply in_map_iff in Hcand. destruct Hcand as ([j b] & <- & Hf).
    apply filter_In in Hf. cbn [fst snd] in *. destruct Hf as [Hn Hm]. apply andb_prop in Hm. destruct Hm as [M1 M2].
    exists j. split; [|split; [exact M1|split; [now apply negb_true_iff|]]].
    + unfold numbered in Hn. clear - Hn.
      assert (G : forall s, In (j, b) (combine (seq s (length ids)) ids) -> s <= j /\ nth_error ids (j - s) = Some b).
      { clear Hn. induction ids as [|a ids IH]; intros s H; [destruct H|]. cbn [length seq combine] in H. destruct H as [H|H].
        - injection H as <- <-. rewrite Nat.sub_diag. auto.
        - apply IH in H. destruct H as [H1 H2]. split; [lia|]. replace (j - s) with (S (j - S s)) by lia. exact H2. }
      destruct (G 0 Hn) as [_ H]. now rewrite Nat.sub_0_r in H.
    + destruct (no_nan_dec (row_at f64_ops cols j)) as [H|H]; [exact H|].
      rewrite (spec_dist_nan (metric_of n) (row_at f64_ops cols j) (row_at f64_ops cols i)
                 (metric_not_inf n Nn)) in NN; [discriminate| |exact H].
      now rewrite !row_at_length.
Qed.

(** With dist = "inf", a row with a NaN feature is returned: row 0 = (0,0), row 1 = (NaN,1), row 2 = (5,5). *)
Definition nan_cols : list (column f64) :=
  [[[Some (fi 0); Some (nnanv f64_ops); Some (fi 5)]]; [[Some (fi 0); Some (fi 1); Some (fi 5)]]].
Lemma inf_nan_neighbour : exists out d0 d1 rest,
  query_knn_ptwise f64_ops (demo_lib_of nat) no_simd Dinf [0; 1; 2] None None nan_cols (demo_trace nan_cols) 1
    (nzero f64_ops) (fi 100) None = Ok out /\ out = Some [(0, d0); (1, d1)] :: rest /\
  ~ no_nan f64_ops (row_at f64_ops nan_cols 1).
Proof.
  destruct (obs_ids_v (query_knn_ptwise f64_ops (demo_lib_of nat) no_simd Dinf [0; 1; 2] None None nan_cols (demo_trace nan_cols) 1
    (nzero f64_ops) (fi 100) None) [Some [0; 1]; None; Some [2; 1]]) as (out & E & O); [vm_compute; reflexivity|].
  destruct out as [|[[|[a d0] [|[b d1] [|]]]|] rest]; try discriminate. cbn [map option_map fst] in O.
  assert (a = 0 /\ b = 1) as [-> ->] by (split; congruence).
  exists (Some [(0, d0); (1, d1)] :: rest), d0, d1, rest. split; [exact E|]. split; [reflexivity|].
  intros H. apply Forall_inv in H. discriminate.
Qed.

(** ** No candidate at all *)
Lemma no_candidates_panic {A} (lib : SplitLib f64_ops A) simd n ids dm em cols trace h k eps maxb par :
  table f64_ops h cols -> interleaving (all_writes f64_ops (length cols) 0 cols) trace -> length ids = h -> 1 <= k ->
  candidates f64_ops ids dm cols = [] ->
  query_knn_ptwise f64_ops lib simd n ids dm em cols trace k eps maxb par = Panic.
Proof.
  intros TB I Li K Hc. unfold query_knn_ptwise. replace (k <? 1) with false by (symmetry; apply Nat.ltb_ge; lia).
  assert (Hh : height f64_ops cols = h).
  { destruct TB as [NE F]. destruct cols; [congruence|]. apply Forall_inv in F. exact F. }
  rewrite Hh. unfold pl_knn_ptwise_w_dist. rewrite (row_major_ok f64_ops h cols trace TB I).
  destruct TB as [NE F]. rewrite <- (filtered_candidates f64_ops dm cols ids h NE Li) in Hc.
  apply map_eq_nil in Hc. rewrite Hc. reflexivity.
Qed.
Lemma empty_cnt_panics :
  pl_nb_cnt f64_ops (demo_lib_of unit) no_simd Dl2 [Some (fi 1)] [[[]]] [] None = Panic.
Proof. apply is_panic_v. vm_compute. reflexivity. Qed.
Lemma null_radius_panics lib simd n cols trace h par : table f64_ops h cols ->
  interleaving (all_writes f64_ops (length cols) 0 cols) trace ->
  pl_nb_cnt f64_ops lib simd n [None] cols trace par = Panic.
Proof.
  intros TB I. unfold pl_nb_cnt. rewrite (row_major_ok f64_ops h cols trace TB I). reflexivity.
Qed.

(** In f64 it can leave that range: three neighbours with target 0.1 average to more than 0.1. *)
Definition tenth : f64 := ndiv f64_ops (fi 1) (fi 10).
Lemma mean_outside :
  nlt tenth (knn_mean f64_ops false (nzero f64_ops) [(tenth, fi 0); (tenth, fi 1); (tenth, fi 2)]) = true.
Proof. vm_compute. reflexivity. Qed.
Definition line_cols : list (column f64) := [[[Some (fi 0); Some (fi 1); Some (fi 3)]]].
Lemma avg_outside : exists m1 m2 m3,
  query_knn_avg f64_ops (demo_lib_of f64) no_simd Dl2 [tenth; tenth; tenth] line_cols (demo_trace line_cols)
    2 false (nzero f64_ops) (fi 100) None = Ok [Some m1; Some m2; Some m3] /\ nlt tenth m1 = true.
Proof.
  set (r := query_knn_avg _ _ _ _ _ _ _ _ _ _ _ _).
  assert (O : match r with Ok [Some m1; Some _; Some _] => nlt tenth m1 | _ => false end = true) by (vm_compute; reflexivity).
  destruct r as [[|[m1|] [|[m2|] [|[m3|] [|]]]]| |]; try discriminate. exists m1, m2, m3. auto.
Qed.

(** [query_knn_ptwise] without distances returns the ids of the version with distances. *)
From Coq Require Import Bool List Arith Lia.
From Verif Require Import Num KdModel KdSpec KdProofs PyKdModel PyKdSpec KnnExprModel KnnExprSpec KnnExprProofs KnnExprSem.
Import ListNotations.

Lemma traverse_map {X Y Z} (h : Y -> Z) (f : X -> option Y) (g : X -> option Z) : (forall x, g x = option_map h (f x)) ->
  forall xs, traverse g xs = option_map (map h) (traverse f xs).
Proof.
  intros H. induction xs as [|x xs IH]; [reflexivity|]. cbn. rewrite H, IH. destruct (f x), (traverse f xs); reflexivity.
Qed.
Lemma set_nth_map {X Y} (h : X -> Y) : forall l i x, set_nth (map h l) i (h x) = option_map (map h) (set_nth l i x).
Proof.
  induction l as [|a l IH]; intros [|i] x; cbn; try reflexivity. rewrite IH. destruct (set_nth l i x); reflexivity.
Qed.
Lemma par_map_map {X Y Z} (h : Y -> Z) sched (f : X -> option Y) (g : X -> option Z) : (forall x, g x = option_map h (f x)) ->
  forall xs, par_map sched g xs = option_map (map h) (par_map sched f xs).
Proof.
  intros H xs. unfold par_map.
  assert (E : forall slots, par_slots g xs sched (map (option_map h) slots) = option_map (map (option_map h)) (par_slots f xs sched slots)).
  { induction sched as [|i sched IH]; intros slots; [reflexivity|]. cbn.
    destruct (nth_error xs i) as [x|]; [|reflexivity]. rewrite H. destruct (f x) as [y|]; [|reflexivity]. cbn [option_map].
    change (Some (h y)) with (option_map h (Some y)). rewrite set_nth_map.
    destruct (set_nth slots i (Some y)) as [s'|]; [|reflexivity]. cbn [option_map]. apply IH. }
  assert (R : repeat (@None Z) (length xs) = map (option_map h) (repeat (@None Y) (length xs))).
  { induction (length xs); cbn; [reflexivity|]. now f_equal. }
  rewrite R, E. destruct (par_slots f xs sched _) as [slots|]; [|reflexivity]. cbn [option_map].
  clear. induction slots as [|[y|] slots IH]; cbn; [reflexivity| |reflexivity].
  rewrite IH. destruct (traverse (fun o => o) slots); reflexivity.
Qed.
Lemma chunked_map {Y Z} (h : Y -> Z) n sched nrows (f : nat -> nat -> option (list Y)) (g : nat -> nat -> option (list Z)) :
  (forall a b, g a b = option_map (map h) (f a b)) ->
  chunked n sched nrows g = option_map (map h) (chunked n sched nrows f).
Proof.
  intros H. unfold chunked. destruct (split_offsets nrows n) as [splits|]; [|reflexivity].
  rewrite (par_map_map (map h) sched (fun ol => f (fst ol) (snd ol))) by (intros; apply H).
  destruct (par_map sched _ splits); cbn; [|reflexivity]. now rewrite concat_map.
Qed.

Section S.
Context {N : NumOps}.
Lemma knn_cell_ids_eq {A} tr k maxb eps bp : knn_cell_ids N (A := A) tr k maxb eps bp
  = option_map (option_map (map fst)) (knn_cell N tr k maxb eps bp).
Proof.
  unfold knn_cell_ids, knn_cell. destruct tr as [[dim d] t]. destruct (fst bp); [|reflexivity].
  destruct (knn_bounded N A dim d t (k + 1) (snd bp) maxb eps) as [[nbs|]|]; [|reflexivity|reflexivity].
  cbn. now rewrite map_map.
Qed.
Lemma knn_ptwise_eq {A} tr mask data k par maxb eps : knn_ptwise N (A := A) tr mask data k par maxb eps
  = option_map (map (option_map (map fst))) (knn_ptwise_w_dist N tr mask data k par maxb eps).
Proof.
  unfold knn_ptwise, knn_ptwise_w_dist. destruct par as [[n sched]|].
  - apply chunked_map. intros a b. repeat match goal with |- context [slice ?l ?x ?y] => destruct (slice l x y); try reflexivity end.
    apply traverse_map. intros x. apply knn_cell_ids_eq.
  - apply traverse_map. intros x. apply knn_cell_ids_eq.
Qed.
Lemma query_ids_eq {A} (lib : SplitLib N A) simd n ids dm em cols trace k eps maxb par :
  query_knn_ptwise_ids N lib simd n ids dm em cols trace k eps maxb par
  = match query_knn_ptwise N lib simd n ids dm em cols trace k eps maxb par with
    | Ok o => Ok (map (option_map (map fst)) o) | Err => Err | Panic => Panic end.
Proof.
  unfold query_knn_ptwise_ids, query_knn_ptwise. destruct (k <? 1); [reflexivity|].
  unfold pl_knn_ptwise, pl_knn_ptwise_w_dist. destruct (series_to_row_major_slice N cols trace); [|reflexivity|reflexivity].
  destruct (tree_of N lib simd n (length cols) _); [|reflexivity]. rewrite knn_ptwise_eq.
  destruct (knn_ptwise_w_dist N _ _ _ _ _ _ _); reflexivity.
Qed.
Context (LAWS : NumLaws N).
Lemma knn_ids_ok {A} (lib : SplitLib N A) simd n ids dm em cols trace h k eps maxb par :
  lib_ok N A lib -> table N h cols -> interleaving (all_writes N (length cols) 0 cols) trace ->
  length ids = h -> mask_fits h em -> scalar_metric n (length cols) -> 1 <= k ->
  (n = Dinf -> Forall (fun p => no_nan N (snd p)) (candidates N ids dm cols)) -> candidates N ids dm cols <> [] -> par_ok par ->
  exists out, query_knn_ptwise_ids N lib simd n ids dm em cols trace k eps maxb par = Ok out /\ length out = h /\
    forall i, i < h -> exists o, nth_error out i = Some (option_map (map fst) o) /\
      knn_cell_spec N (metric_of n) (candidates N ids dm cols) em cols k maxb i o.
Proof.
  intros H1 H2 H3 H4 H5 H6 H7 H8 H9 H10.
  destruct (@knn_expr_ok N LAWS A lib simd n ids dm em cols trace h k eps maxb par H1 H2 H3 H4 H5 H6 H7 H8 H9 H10) as (out & E & L & K).
  exists (map (option_map (map fst)) out). split; [rewrite query_ids_eq, E; reflexivity|]. split; [now rewrite map_length|].
  intros i Hi. destruct (K i Hi) as (o & Eo & S). exists o. split; [|exact S]. now rewrite nth_error_map, Eo.
Qed.
End S.

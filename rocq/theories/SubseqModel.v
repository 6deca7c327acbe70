(** Model of query_similar_count (python/polars_ds/exprs/ts_features.py 239-311) and src/num_ext/subseq_sim.rs, in exact
    real arithmetic (both the folded and the SIMD distance are the sum of the squared differences). *)
From Coq Require Import Reals List Arith.
From Verif Require Import WStatsSpec WStatsModel KnnExprModel SubseqSpec.
Import ListNotations.
Open Scope R_scope.

Inductive outcome := Count (n : nat) | Raises | Panics.
(** [cont_slice().unwrap()]: panics when there is a null. *)
Fixpoint cont_slice (x : rcol) : option (list R) :=
  match x with [] => Some [] | None :: _ => None | Some a :: x' => option_map (cons a) (cont_slice x') end.
(** [slice.windows(w)]. *)
Definition slice_windows (w : nat) (l : list R) : list (list R) := map (fun i => firstn w (skipn i l)) (seq 0 (length l + 1 - w)).
Definition lt_b (a b : R) : bool := if Rlt_dec a b then true else false.
(** subseq_sim.rs 21-66 pl_subseq_sim_cnt_l2.  The counts are u32; a column has fewer than 2^32 rows.  Rayon's [sum] adds the
    per-window results in some order; the model adds them in list order. *)
Definition subseq_l2 (seqc : rcol) (query : list R) (threshold : R) (par : bool) : outcome :=
  match cont_slice seqc with
  | None => Panics
  | Some s =>
    if (length s <? length query)%nat then Raises
    else let ws := slice_windows (length query) s in
      Count (if par then list_sum (map (fun w => if lt_b (sqdist query w) threshold then 1 else 0)%nat ws)
             else fold_left (fun acc w => if lt_b (sqdist w query) threshold then acc + 1 else acc)%nat ws 0%nat)
  end.
(** ts_features.py 290-294: rolling mean and rolling variance of the complete windows; [max_horizontal] with 1e-10. *)
Definition rolling_mean (w : nat) (l : list R) : list R := map mean_of (slice_windows w l).
Definition rolling_var (w : nat) (l : list R) : list R := map (fun v => Rmax (var_of v) (/ 10 ^ 10)) (slice_windows w l).
(** ts_features.py 298: (q - mean) / std; a constant query gives 0 / 0 = NaN in every place ([None]). *)
Definition znormed_query (q : list R) : option (list R) :=
  if Req_EM_T (var_of q) 0 then None else Some (map (fun x => (x - mean_of q) / sqrt (var_of q)) q).
(** subseq_sim.rs 68-125 pl_subseq_sim_cnt_zl2; [similar i w] is the test of window i; a NaN distance is not below the
    threshold.  [par = Some n_threads] if evaluated in parallel.  [seq.len() + 1 - window_size] is a usize: with a longer
    query it wraps around (release profile); it is used in the parallel branch only, where slicing then panics. *)
Definition subseq_zl2 (seqc : rcol) (query : option (list R)) (window_size : nat) (rmean rvar : list R) (threshold : R) (par : option nat) : outcome :=
  match cont_slice seqc with
  | None => Panics
  | Some s =>
    let similar i w := match query with
      | None => false
      | Some q => lt_b (sqdist q (map (fun x => (x - nth i rmean 0) / sqrt (nth i rvar 0)) w)) threshold
      end in
    let ws := slice_windows window_size s in
    match par with
    | None => Count (fold_left (fun acc iw => if similar (fst iw) (snd iw) then acc + 1 else acc)%nat (combine (seq 0 (length ws)) ws) 0%nat)
    | Some n_threads =>
      if (length s + 1 <? window_size)%nat then Panics
      else match split_offsets (length s + 1 - window_size) n_threads with
        | None => Panics
        | Some splits =>
          fold_left (fun acc ol =>
            match acc, slice ws (fst ol) (fst ol + snd ol) with
            | Count a, Some chunk =>
              Count (a + fold_left (fun b iw => if similar (fst iw + fst ol)%nat (snd iw) then b + 1 else b) (combine (seq 0 (length chunk)) chunk) 0)%nat
            | _, _ => Panics
            end) splits (Count 0)
        end
    end
  end.
Inductive metric := Sql2 | Sqzl2.
(** ts_features.py 271-308 query_similar_count without [return_ratio]; [query] has no nulls (else ValueError); [None]: ValueError.
    [par]: None = sequential. *)
Definition query_similar_count (query : list R) (target : rcol) (threshold : R) (m : metric) (par : option nat) : outcome :=
  if (length query <=? 1)%nat then Raises
  else match m with
    | Sql2 => subseq_l2 target query threshold (match par with Some _ => true | None => false end)
    | Sqzl2 => subseq_zl2 target (znormed_query query) (length query) (rolling_mean (length query) (values target)) (rolling_var (length query) (values target)) threshold par
    end.
(** ts_features.py 306-307 return_ratio. *)
Definition query_similar_ratio (query : list R) (target : rcol) (threshold : R) (m : metric) (par : option nat) : option R :=
  match query_similar_count query target threshold m par with
  | Count n => Some (INR n / (INR (length target) - INR (length query) + 1))
  | _ => None
  end.

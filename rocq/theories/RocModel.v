(** Model of src/num_ext/tp_fp.rs: [tp_fp_frame], [pl_roc_auc], [pl_tpr_fpr], [pl_combo_b],
    [binary_confusion_matrix] and [pl_mcc].
    Simplifications: ratios are exact rationals instead of f64 ([None]: NaN, i.e. division by zero);
    scores range over any type with a total order (f64 without NaN in the code); Polars'
    [group_by(threshold).agg(..).sort(threshold)] is the ascending list of distinct scores. *)
From Coq Require Import Bool List ZArith QArith.
From Verif Require Import PairSums QSum TrapzModel AnovaModel.
Import ListNotations.
Open Scope Z_scope.

Definition u32 (z : Z) : Z := z mod 2 ^ 32.

(** [cum_sum]. *)
Fixpoint cum_sum (acc : Z) (l : list Z) : list Z :=
  match l with [] => [] | a :: l' => (acc + a) :: cum_sum (acc + a) l' end.
(** [shift_and_fill(1, v)]. *)
Definition shift_fill (v : Z) (l : list Z) : list Z := firstn (length l) (v :: l).

Section Scores.
Context {K : Type} (leb : K -> K -> bool).
Definition keq (a b : K) : bool := leb a b && leb b a.
Definition klt (a b : K) : bool := leb a b && negb (leb b a).

(** The distinct scores in ascending order. *)
Fixpoint key_insert (k : K) (l : list K) : list K :=
  match l with
  | [] => [k]
  | a :: l' => if leb k a then if leb a k then l else k :: l else a :: key_insert k l'
  end.
Definition keys (rows : list (K * Z)) : list K := fold_right (fun r => key_insert (fst r)) [] rows.

Record frame_row := mkrow { f_thr : K; f_tp : Z; f_fp : Z; f_prec : option Q }.

(** tp_fp.rs 26-85 tp_fp_frame (after the data checks), [as_ratio = false]: rows are
    (predicted, actual). *)
Definition tp_fp_frame (rows : list (K * Z)) (positive_count : Z) : list frame_row :=
  let n := u32 (zlen rows) in
  let ks := keys rows in
  let grp k := filter (fun r => keq (fst r) k) rows in
  let cnt := map (fun k => zlen (grp k)) ks in
  let pos := map (fun k => u32 (zsum snd (grp k))) ks in
  let pp := zipw (fun c cs => u32 (u32 (n - cs) + c)) cnt (cum_sum 0 cnt) in
  let tp := shift_fill positive_count (map (fun cs => u32 (positive_count - cs)) (cum_sum 0 pos)) in
  zipw (fun k tf => mkrow k (fst tf) (u32 (snd tf - fst tf)) (qdiv (inject_Z (fst tf)) (inject_Z (snd tf))))
       ks (zipw pair tp pp).

(** [as_ratio = true]: the columns divided by their first value. *)
Definition first_z (f : frame_row -> Z) (l : list frame_row) : Z := match l with [] => 0 | r :: _ => f r end.
Definition ratios (f : frame_row -> Z) (l : list frame_row) : list (option Q) :=
  map (fun r => qdiv (inject_Z (f r)) (inject_Z (first_z f l))) l.
(** A column as a slice: [None] when it contains a NaN (which then spoils every sum). *)
Fixpoint all_some (l : list (option Q)) : option (list Q) :=
  match l with
  | [] => Some []
  | Some q :: l' => option_map (cons q) (all_some l')
  | None :: _ => None
  end.

Inductive out (A : Type) := OVal (a : A) | ONan | OErr | OPanic.
Arguments OVal {A} a. Arguments ONan {A}. Arguments OErr {A}. Arguments OPanic {A}.

(** tp_fp.rs 32-43: the data checks. *)
Definition complete_rows (pred : list (option K)) (actual : list (option Z)) : option (list (K * Z)) :=
  if negb (length actual =? length pred)%nat || (length actual =? 0)%nat || has_null actual || has_null pred
  then None else Some (combine (flat pred) (flat actual)).
(** [actual.sum::<u32>()]: nulls are skipped. *)
Definition positives (actual : list (option Z)) : Z := u32 (zsum (fun x => x) (flat actual)).

(** tp_fp.rs 224-250 pl_roc_auc. *)
Definition roc_auc (actual : list (option Z)) (pred : list (option K)) : out Q :=
  let p := positives actual in
  if p =? 0 then ONan
  else match complete_rows pred actual with
       | None => OErr
       | Some rows =>
           let fr := tp_fp_frame rows p in
           match all_some (ratios f_tp fr), all_some (ratios f_fp fr) with
           | Some y, Some x => OVal (- trapz y x)%Q
           | _, _ => ONan
           end
       end.

(** tp_fp.rs 151-177 pl_tpr_fpr: (threshold, tpr, fpr) for every distinct score. *)
Definition tpr_fpr (actual : list (option Z)) (pred : list (option K)) : out (list (K * option Q * option Q)) :=
  let p := positives actual in
  if p =? 0 then ONan
  else match complete_rows pred actual with
       | None => OErr
       | Some rows =>
           let fr := tp_fp_frame rows p in
           OVal (zipw (fun a b => (fst a, snd a, b)) (combine (map f_thr fr) (ratios f_tp fr)) (ratios f_fp fr))
       end.

Record metrics := mkmetrics {
  m_precision : Q; m_recall : Q; m_f : option Q; m_ap : Q; m_auc : option Q }.

(** tp_fp.rs 128-134: the fold with [mul_add]; pairs of consecutive recalls and the precision. *)
Fixpoint ap_fold (y p : list Q) : Q :=
  match y, p with
  | y0 :: ((y1 :: _) as y'), p0 :: p' => ((y1 - y0) * p0 + ap_fold y' p')%Q
  | _, _ => 0%Q
  end.

(** tp_fp.rs 87-149 pl_combo_b.  [binary_search_by] on the ascending distinct thresholds returns, in
    both its [Ok] and [Err] cases, the number of thresholds below the given one. *)
Definition combo_b (actual : list (option Z)) (pred : list (option K)) (threshold : K) : out metrics :=
  let p := positives actual in
  if p =? 0 then ONan
  else match complete_rows pred actual with
       | None => OErr
       | Some rows =>
           let fr := tp_fp_frame rows p in
           match all_some (ratios f_tp fr), all_some (map f_prec fr) with
           | Some y, Some prec =>
               let index := length (filter (fun r => klt (f_thr r) threshold) fr) in
               let auc := match all_some (ratios f_fp fr) with Some x => Some (- trapz y x)%Q | None => None end in
               match nth_error y index, nth_error prec index with
               | Some recall, Some pr =>
                   OVal (mkmetrics pr recall (qdiv ((2#1) * (pr * recall)) (pr + recall)) (- (1) * ap_fold y prec)%Q auc)
               | _, _ => OPanic
               end
           | _, _ => ONan
           end
       end.
End Scores.
Arguments OVal {A} a. Arguments ONan {A}. Arguments OErr {A}. Arguments OPanic {A}.

(** tp_fp.rs 179-190 binary_confusion_matrix: [output[i % 4] += 1]. *)
Fixpoint bump (i : nat) (l : list Z) : list Z :=
  match l, i with [], _ => [] | a :: l', O => u32 (a + 1) :: l' | a :: l', S i' => a :: bump i' l' end.
Definition confusion (combined : list Z) : list Z :=
  fold_left (fun acc i => bump (Z.to_nat (i mod 4)) acc) combined [0; 0; 0; 0].

(** metrics.py 488-505: [(2 * y + x)] with [y], [x] the label columns (0/1 after the casts). *)
Definition combine_labels (actual pred : list bool) : list Z :=
  zipw (fun a p => 2 * b2z a + b2z p) actual pred.

(** tp_fp.rs 192-210 pl_mcc up to the final division: the integer numerator computed with wrapping
    u32 products (release profile) and the product under the square root. *)
Definition mcc_parts (combined : list Z) : Z * Z :=
  match confusion combined with
  | [n00; n01; n10; n11] =>
      let n1_ := u32 (n11 + n10) in
      let n_1 := u32 (n11 + n01) in
      let n0_ := u32 (n01 + n00) in
      let n_0 := u32 (n10 + n00) in
      (u32 (n11 * n00) - u32 (n10 * n01), n1_ * n_1 * n0_ * n_0)
  | _ => (0, 0)
  end.

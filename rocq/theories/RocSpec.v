(** Specification vocabulary for binary classification metrics. *)
From Coq Require Import Bool List ZArith QArith.
From Verif Require Import PairSums QSum.
Import ListNotations.
Open Scope Z_scope.

Record total_order {K} (leb : K -> K -> bool) : Prop := {
  to_total : forall a b, leb a b = true \/ leb b a = true;
  to_trans : forall a b c, leb a b = true -> leb b c = true -> leb a c = true;
  to_anti : forall a b, leb a b = true -> leb b a = true -> a = b }.

Section S.
Context {K : Type} (leb : K -> K -> bool).
Implicit Types rows : list (K * bool).   (* score and true label *)

Definition npos rows : Z := zlen (filter (fun r => snd r) rows).
Definition nneg rows : Z := zlen (filter (fun r => negb (snd r)) rows).
(** Predicting positive when the score is at least [t]. *)
Definition tp_at rows (t : K) : Z := zlen (filter (fun r => snd r && leb t (fst r)) rows).
Definition fp_at rows (t : K) : Z := zlen (filter (fun r => negb (snd r) && leb t (fst r)) rows).
Definition pp_at rows (t : K) : Z := zlen (filter (fun r => leb t (fst r)) rows).

(** Probability that a random positive scores higher than a random negative, ties counting one half. *)
Definition wins (neg pos : K) : Q :=
  if leb pos neg then if leb neg pos then (1 # 2)%Q else 0%Q else 1%Q.
Definition rank_probability rows : Q :=
  (qsum (fun a => qsum (fun b => wins (fst a) (fst b)) (filter (fun r => snd r) rows)) (filter (fun r => negb (snd r)) rows)
   / inject_Z (npos rows * nneg rows))%Q.

(** Positives and negatives whose score is the largest one. *)
Definition is_top rows (k : K) : bool := forallb (fun r => leb (fst r) k) rows.
Definition top_pos rows : Z := zlen (filter (fun r => snd r && is_top rows (fst r)) rows).
Definition top_neg rows : Z := zlen (filter (fun r => negb (snd r) && is_top rows (fst r)) rows).
(** All scores equal. *)
Definition one_score rows : Prop := forall a b, In a rows -> In b rows -> fst a = fst b.

Definition recall_at rows t : Q := (inject_Z (tp_at rows t) / inject_Z (npos rows))%Q.
Definition precision_at rows t : Q := (inject_Z (tp_at rows t) / inject_Z (pp_at rows t))%Q.
(** Average precision as defined by scikit-learn: sum over the thresholds [t_1 < ... < t_m] of
    (R(t_j) - R(t_{j+1})) * P(t_j), with R = 0 beyond the last threshold. *)
Fixpoint avg_precision rows (ts : list K) : Q :=
  match ts with
  | [] => 0%Q
  | t :: ts' => ((recall_at rows t - match ts' with [] => 0 | u :: _ => recall_at rows u end) * precision_at rows t
                 + avg_precision rows ts')%Q
  end.
(** [ts] lists the distinct scores in ascending order. *)
Definition thresholds rows (ts : list K) : Prop :=
  (forall k, In k ts <-> exists b, In (k, b) rows) /\
  forall i j a b, (i < j)%nat -> nth_error ts i = Some a -> nth_error ts j = Some b ->
                  leb a b = true /\ leb b a = false.

Definition labels rows : list (option Z) := map (fun r => Some (b2z (snd r))) rows.
Definition scores rows : list (option K) := map (fun r => Some (fst r)) rows.
End S.

(** Number of rows with the given true and predicted label. *)
Definition cell (rows : list (bool * bool)) (t p : bool) : Z :=
  zlen (filter (fun r => Bool.eqb (fst r) t && Bool.eqb (snd r) p) rows).

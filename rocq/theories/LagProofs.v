From Coq Require Import Reals List ZArith Arith Lra Lia Psatz Permutation.
From Verif Require Import WStatsSpec WStatsModel WStatsProofs MetricSpec MetricModel MetricProofs LagSpec LagModel.
Import ListNotations.
Open Scope R_scope.

Lemma known_values x : known x = values x.
Proof. reflexivity. Qed.
Lemma get_out x i : (length x <= i)%nat -> get x i = None.
Proof. intro H. unfold get. apply nth_error_None in H. now rewrite H. Qed.
Lemma get_lift1 f x i : get (lift1 f x) i = option_map f (get x i).
Proof. unfold get, lift1. rewrite nth_error_map. destruct (nth_error x i) as [[a|]|]; reflexivity. Qed.
Lemma get_lift2 f : forall x y i, get (lift2 f x y) i = match get x i, get y i with Some a, Some b => Some (f a b) | _, _ => None end.
Proof.
  unfold get, lift2. induction x as [|o x IH]; intros [|p y] [|i]; cbn; try reflexivity.
  - destruct o; reflexivity.
  - now destruct (nth_error x i) as [[a|]|].
  - now destruct o, p.
  - apply IH.
Qed.
Lemma get_up n x i : get (shift_up n x) i = get x (i + n).
Proof.
  unfold get, shift_up. destruct (le_lt_dec (length x) (i + n)) as [H|H].
  - assert (nth_error x (i + n) = None) as -> by now apply nth_error_None.
    destruct (le_lt_dec (length (skipn n x)) i) as [L|L]; [|rewrite skipn_length in L; lia].
    rewrite nth_error_app2 by exact L. set (k := (i - length (skipn n x))%nat). clearbody k. generalize (Nat.min n (length x)). intro m. revert k.
    induction m as [|m IH]; intros [|k]; cbn; auto.
  - rewrite nth_error_app1 by (rewrite skipn_length; lia). assert (nth_error (skipn n x) i = nth_error x (i + n)) as ->; [|easy].
    clear H. revert x. induction n as [|n IH]; intro x; [now rewrite Nat.add_0_r|]. destruct x as [|o x]; [now destruct i|].
    cbn [skipn]. rewrite IH. now rewrite Nat.add_succ_r.
Qed.
Lemma get_by n x i : get (shift_by n x) i = if (i <? length x)%nat then if (i <? n)%nat then None else get x (i - n) else None.
Proof.
  unfold get, shift_by. destruct (Nat.ltb_spec i (length x)) as [H|H].
  - assert (forall A (l : list A) k j, (j < k)%nat -> nth_error (firstn k l) j = nth_error l j) as F.
    { clear. induction l as [|a l IH]; intros [|k] [|j] L; cbn; auto; try lia. apply IH. lia. }
    rewrite F by exact H. destruct (Nat.ltb_spec i n) as [L|L].
    + rewrite nth_error_app1 by now rewrite repeat_length. now rewrite nth_error_repeat.
    + rewrite nth_error_app2 by now rewrite repeat_length. now rewrite repeat_length.
  - assert (nth_error (firstn (length x) (repeat None n ++ x)) i = None) as ->; [|easy]. apply nth_error_None. rewrite firstn_length. lia.
Qed.
Definition opt {A} (o : option A) : list A := match o with Some a => [a] | None => [] end.
Lemma values_get x : values x = flat_map (fun i => opt (get x i)) (seq 0 (length x)).
Proof.
  induction x as [|o x IH]; [easy|]. cbn [length seq flat_map]. rewrite <- seq_shift, flat_map_concat_map, map_map, <- flat_map_concat_map.
  unfold values in *. cbn [flat_map]. rewrite IH. now destruct o.
Qed.
Lemma flat_nil {A B} (f : A -> list B) l : (forall i, In i l -> f i = []) -> flat_map f l = [].
Proof. induction l as [|a l IH]; intro H; [easy|]. cbn. rewrite (H a) by now left. cbn. apply IH. intros. apply H. now right. Qed.
Lemma flat_ext {A B} (f g : A -> list B) l : (forall i, In i l -> f i = g i) -> flat_map f l = flat_map g l.
Proof. induction l as [|a l IH]; intro H; [easy|]. cbn. rewrite (H a) by now left. f_equal. apply IH. intros. apply H. now right. Qed.
Lemma flat_trunc {B} (f : nat -> list B) n m : (m <= n)%nat -> (forall i, (m <= i)%nat -> f i = []) -> flat_map f (seq 0 n) = flat_map f (seq 0 m).
Proof.
  intros L H. replace n with (m + (n - m))%nat by lia. rewrite seq_app, flat_map_app, (flat_nil f (seq (0 + m) _)); [now rewrite app_nil_r|].
  intros i I. apply in_seq in I. apply H. lia.
Qed.
Lemma values_get_n x n : (length x <= n)%nat -> values x = flat_map (fun i => opt (get x i)) (seq 0 n).
Proof. intro H. rewrite (flat_trunc _ n (length x)); [apply values_get|exact H|]. intros i I. now rewrite get_out. Qed.
Lemma map_flat {A B C} (g : B -> C) (f : A -> list B) l : map g (flat_map f l) = flat_map (fun i => map g (f i)) l.
Proof. rewrite !flat_map_concat_map, concat_map, map_map. reflexivity. Qed.
Lemma flat_map_map {A B C} (f : B -> list C) (g : A -> B) l : flat_map f (map g l) = flat_map (fun i => f (g i)) l.
Proof. now rewrite !flat_map_concat_map, map_map. Qed.
(** A function of positions i that only yields something for i >= w: reindex from 0. *)
Lemma flat_shift {B} (f : nat -> list B) w n : (forall i, (i < w)%nat -> f i = []) ->
  flat_map f (seq 0 n) = flat_map (fun i => f (i + w)%nat) (seq 0 (n - w)).
Proof.
  intro H. destruct (le_lt_dec w n) as [L|L].
  - replace n with (w + (n - w))%nat at 1 by lia. rewrite seq_app, flat_map_app, (flat_nil f (seq 0 w)) by (intros i I; apply in_seq in I; apply H; lia).
    cbn [app plus]. rewrite <- (flat_map_map f (fun i => i + w)%nat). f_equal. clear. generalize (n - w)%nat. intro m.
    replace (seq w m) with (seq (0 + w) m) by reflexivity. generalize 0%nat. induction m as [|m IH]; intro k; [easy|]. cbn. f_equal. apply (IH (S k)).
  - replace (n - w)%nat with 0%nat by lia. cbn. apply flat_nil. intros i I. apply in_seq in I. apply H. lia.
Qed.

Lemma up_len n x : length (shift_up n x) = length x.
Proof. unfold shift_up. rewrite app_length, skipn_length, repeat_length. lia. Qed.
Lemma by_len n x : length (shift_by n x) = length x.
Proof. unfold shift_by. rewrite firstn_length, app_length, repeat_length. lia. Qed.
Lemma lift2_len f x y : length (lift2 f x y) = Nat.min (length x) (length y).
Proof. unfold lift2. now rewrite map_length, combine_length. Qed.
Lemma values_up f n x : values (lift2 f x (shift_up n x)) = map (fun p => f (fst p) (snd p)) (pairs_at n x).
Proof.
  rewrite (values_get_n _ (length x)) by (rewrite lift2_len, up_len; lia). unfold pairs_at. rewrite map_flat. apply flat_ext. intros i _.
  rewrite get_lift2, get_up. destruct (get x i), (get x (i + n)); reflexivity.
Qed.
Lemma pairs_trunc n x : pairs_at n x = flat_map (fun i => match get x i, get x (i + n) with Some a, Some b => [(a, b)] | _, _ => [] end) (seq 0 (length x - n)).
Proof.
  unfold pairs_at. apply flat_trunc; [lia|]. intros i I. rewrite (get_out x (i + n)) by lia. now destruct (get x i).
Qed.
Lemma triples_trunc n x : triples_at n x = flat_map (fun i => match get x i, get x (i + n), get x (i + 2 * n) with Some a, Some b, Some c => [(a, b, c)] | _, _, _ => [] end) (seq 0 (length x - 2 * n)).
Proof.
  unfold triples_at. apply flat_trunc; [lia|]. intros i I. rewrite (get_out x (i + 2 * n)) by lia. destruct (get x i), (get x (i + n)); reflexivity.
Qed.
Lemma values_by f n x : values (lift2 f x (shift_by n x)) = map (fun p => f (snd p) (fst p)) (pairs_at n x).
Proof.
  rewrite (values_get_n _ (length x)) by (rewrite lift2_len, by_len; lia). rewrite (flat_shift _ n).
  - rewrite pairs_trunc, map_flat. apply flat_ext. intros i I. apply in_seq in I. rewrite get_lift2, get_by.
    destruct (Nat.ltb_spec (i + n) (length x)); [|lia]. destruct (Nat.ltb_spec (i + n) n); [lia|]. replace (i + n - n)%nat with i by lia.
    destruct (get x (i + n)), (get x i); reflexivity.
  - intros i I. rewrite get_lift2, get_by. destruct (Nat.ltb_spec i n); [|lia]. destruct (i <? length x)%nat, (get x i); reflexivity.
Qed.
Lemma values_c3 n x : values (lift2 Rmult (lift2 Rmult x (shift_by n x)) (shift_by (2 * n) x)) = map (fun t => let '(a, b, c) := t in c * b * a) (triples_at n x).
Proof.
  rewrite (values_get_n _ (length x)) by (rewrite !lift2_len, !by_len; lia). rewrite (flat_shift _ (2 * n)).
  - rewrite triples_trunc, map_flat. apply flat_ext. intros i I. apply in_seq in I. rewrite !get_lift2, !get_by.
    destruct (Nat.ltb_spec (i + 2 * n) (length x)); [|lia]. destruct (Nat.ltb_spec (i + 2 * n) n).
    + lia.
    + destruct (Nat.ltb_spec (i + 2 * n) (2 * n)); [lia|]. replace (i + 2 * n - n)%nat with (i + n)%nat by lia. replace (i + 2 * n - 2 * n)%nat with i by lia.
      destruct (get x (i + 2 * n)), (get x (i + n)), (get x i); reflexivity.
  - intros i I. rewrite !get_lift2, !get_by. destruct (Nat.ltb_spec i (2 * n)); [|lia].
    destruct (i <? length x)%nat, (get x i), (i <? n)%nat, (get x (i - n)); reflexivity.
Qed.
Lemma values_tra n x : values (lift2 Rmult (lift2 Rmult (shift_up n x) (lift2 Rplus (shift_up (2 * n) x) x)) (lift2 Rminus (shift_up (2 * n) x) x)) =
  map (fun t => let '(a, b, c) := t in b * (c + a) * (c - a)) (triples_at n x).
Proof.
  rewrite (values_get_n _ (length x)) by (rewrite !lift2_len, !up_len; lia). unfold triples_at. rewrite map_flat. apply flat_ext. intros i _.
  rewrite !get_lift2, !get_up. destruct (get x i), (get x (i + n)), (get x (i + 2 * n)); reflexivity.
Qed.

(** Reversing the column. *)
Lemma get_rev x i : (i < length x)%nat -> get (rev x) i = get x (length x - 1 - i).
Proof.
  intro H. unfold get. assert (nth_error (rev x) i = nth_error x (length x - 1 - i)) as ->; [|easy].
  rewrite (nth_error_nth' (rev x) None) by now rewrite rev_length. rewrite (nth_error_nth' x None) by lia. f_equal. rewrite rev_nth by exact H. f_equal. lia.
Qed.
Lemma rev_seq n : map (fun i => (n - 1 - i)%nat) (seq 0 n) = rev (seq 0 n).
Proof.
  induction n as [|n IH]; [easy|]. rewrite seq_S, rev_app_distr. cbn [rev app]. rewrite <- IH. cbn [plus]. rewrite <- seq_S. cbn [seq map].
  f_equal; [lia|]. rewrite <- seq_shift, map_map. apply map_ext. intro i. lia.
Qed.
Lemma flat_rev {B} (f : nat -> list B) n : Permutation (flat_map (fun i => f (n - 1 - i)%nat) (seq 0 n)) (flat_map f (seq 0 n)).
Proof. rewrite <- (flat_map_map f (fun i => (n - 1 - i)%nat)), rev_seq. apply Permutation_flat_map. symmetry. apply Permutation_rev. Qed.
Definition swap2 (p : R * R) : R * R := (snd p, fst p).
Definition swap3 (t : R * R * R) : R * R * R := let '(a, b, c) := t in (c, b, a).
Lemma pairs_rev n x : Permutation (pairs_at n (rev x)) (map swap2 (pairs_at n x)).
Proof.
  rewrite !pairs_trunc, rev_length, map_flat. rewrite <- flat_rev.
  erewrite flat_ext; [reflexivity|]. intros i I. apply in_seq in I. rewrite !get_rev by lia.
  replace (length x - 1 - (length x - n - 1 - i))%nat with (i + n)%nat by lia. replace (length x - 1 - (length x - n - 1 - i + n))%nat with i by lia.
  destruct (get x (i + n)), (get x i); reflexivity.
Qed.
Lemma triples_rev n x : Permutation (triples_at n (rev x)) (map swap3 (triples_at n x)).
Proof.
  rewrite !triples_trunc, rev_length, map_flat. rewrite <- flat_rev.
  erewrite flat_ext; [reflexivity|]. intros i I. apply in_seq in I. rewrite !get_rev by lia.
  replace (length x - 1 - (length x - 2 * n - 1 - i))%nat with (i + 2 * n)%nat by lia.
  replace (length x - 1 - (length x - 2 * n - 1 - i + n))%nat with (i + n)%nat by lia.
  replace (length x - 1 - (length x - 2 * n - 1 - i + 2 * n))%nat with i by lia.
  destruct (get x (i + 2 * n)), (get x (i + n)), (get x i); reflexivity.
Qed.
Lemma values_rev x : Permutation (values (rev x)) (values x).
Proof. unfold values. apply Permutation_flat_map. symmetry. apply Permutation_rev. Qed.
Lemma total_perm {A} (f : A -> R) l l' : Permutation l l' -> total f l = total f l'.
Proof. intro P. unfold total. induction P; cbn; lra. Qed.
Lemma total_map {A B} (f : B -> R) (g : A -> B) l : total f (map g l) = total (fun x => f (g x)) l.
Proof. unfold total. now rewrite map_map. Qed.
Lemma avg_perm {A} (f : A -> R) l l' : Permutation l l' -> avg f l = avg f l'.
Proof. intro P. rewrite !avg_total, (total_perm f l l' P), (Permutation_length P). reflexivity. Qed.
Lemma avg_map {A B} (f : B -> R) (g : A -> B) l : avg f (map g l) = avg (fun x => f (g x)) l.
Proof. unfold avg. now rewrite map_map. Qed.
Lemma rmean_avg {A} (f : A -> R) l : rmean (map f l) = match l with [] => None | _ => Some (avg f l) end.
Proof. destruct l; reflexivity. Qed.
Lemma pairs_lift1 f n x : pairs_at n (lift1 f x) = map (fun p => (f (fst p), f (snd p))) (pairs_at n x).
Proof.
  unfold pairs_at. rewrite map_flat. unfold lift1 at 3. rewrite map_length. apply flat_ext. intros i _. rewrite !get_lift1. destruct (get x i), (get x (i + n)); reflexivity.
Qed.
Lemma triples_lift1 f n x : triples_at n (lift1 f x) = map (fun t => let '(a, b, c) := t in (f a, f b, f c)) (triples_at n x).
Proof.
  unfold triples_at. rewrite map_flat. unfold lift1 at 4. rewrite map_length. apply flat_ext. intros i _. rewrite !get_lift1.
  destruct (get x i), (get x (i + n)), (get x (i + 2 * n)); reflexivity.
Qed.
(** Sums over pairs are bounded by sums over the column. *)
Lemma pairs_fst g n x : (forall v, 0 <= g v) -> total (fun p => g (fst p)) (pairs_at n x) <= total g (values x).
Proof.
  intro G. unfold pairs_at. rewrite values_get. induction (seq 0 (length x)) as [|i l IH]; [cbn; unfold total; cbn; lra|].
  cbn [flat_map]. unfold total in *. rewrite !map_app, !Rsum_app. apply Rplus_le_compat; [|exact IH].
  destruct (get x i) as [a|], (get x (i + n)); cbn; try lra. specialize (G a). lra.
Qed.
Lemma pairs_snd g n x : (forall v, 0 <= g v) -> total (fun p => g (snd p)) (pairs_at n x) <= total g (values x).
Proof.
  intro G. rewrite <- (total_perm g _ _ (values_rev x)). eapply Rle_trans; [|apply (pairs_fst g n (rev x) G)].
  rewrite (total_perm _ _ _ (pairs_rev n x)), total_map. cbn. lra.
Qed.
Lemma pairs_cauchy n x : Rabs (total (fun p => fst p * snd p) (pairs_at n x)) <= total (fun v => v ^ 2) (values x).
Proof.
  pose proof (pairs_fst (fun v => v ^ 2) n x (fun v => pow2_ge_0 v)) as F. pose proof (pairs_snd (fun v => v ^ 2) n x (fun v => pow2_ge_0 v)) as S.
  assert (H : forall l : list (R * R), 2 * Rabs (total (fun p => fst p * snd p) l) <= total (fun p => fst p ^ 2) l + total (fun p => snd p ^ 2) l).
  { clear. induction l as [|[a b] l IH]; unfold total in *; cbn [map Rsum fst snd] in *; [rewrite Rabs_R0; lra|].
    eapply Rle_trans; [apply Rmult_le_compat_l; [lra|apply Rabs_triang]|]. assert (2 * Rabs (a * b) <= a ^ 2 + b ^ 2); [|lra].
    pose proof (pow2_ge_0 (a - b)). pose proof (pow2_ge_0 (a + b)). unfold Rabs. destruct (Rcase_abs (a * b)); nra. }
  specialize (H (pairs_at n x)). cbn beta in *. lra.
Qed.

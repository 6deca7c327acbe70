From Coq Require Import Bool List Arith Lia Permutation Sorted ZArith NArith.
From Verif Require Import Num KdModel KdSpec KdProofs KnnUnique PyKdModel PyKdSpec PyKdProofs KnnExprModel KnnExprSpec.
Import ListNotations.

(** ** Lists *)
Lemma seq_split_at a l1 l2 : seq a l1 ++ seq (a + l1) l2 = seq a (l1 + l2).
Proof. symmetry. apply seq_app. Qed.

Lemma concat_const_seq cs : forall n, concat (map (fun p => seq (p * cs) cs) (seq 0 n)) = seq 0 (n * cs).
Proof.
  induction n as [|n IH]; [reflexivity|].
  rewrite seq_S, map_app, concat_app, IH. simpl. rewrite app_nil_r.
  replace (n * cs) with (0 + n * cs) at 2 by lia. rewrite seq_split_at. f_equal. lia.
Qed.

Lemma split_offsets_cover len n : 1 <= n ->
  exists s, split_offsets len n = Some s /\ length s = n /\
    concat (map (fun ol => seq (fst ol) (snd ol)) s) = seq 0 len.
Proof.
  intros Hn. unfold split_offsets. destruct (n =? 1) eqn:E1.
  - apply Nat.eqb_eq in E1. exists [(0, len)]. simpl. rewrite app_nil_r. repeat split. lia.
  - apply Nat.eqb_neq in E1. destruct (n =? 0) eqn:E0; [apply Nat.eqb_eq in E0; lia|].
    eexists. split; [reflexivity|]. split; [rewrite map_length; apply seq_length|].
    rewrite map_map. cbn [fst snd]. set (cs := len / n).
    assert (Hc : n * cs <= len) by (apply Nat.mul_div_le; lia).
    destruct n as [|n']; [lia|]. rewrite seq_S, map_app, concat_app. cbn [map concat].
    replace (S n' - 1) with n' by lia. rewrite Nat.add_0_l, Nat.eqb_refl, app_nil_r.
    rewrite (map_ext_in _ (fun p => seq (p * cs) cs)).
    2:{ intros p Hp. apply in_seq in Hp. destruct (p =? n') eqn:E; [apply Nat.eqb_eq in E; lia|reflexivity]. }
    rewrite concat_const_seq. change (n' * cs) with (0 + n' * cs) at 2. rewrite seq_split_at.
    f_equal. simpl in Hc. lia.
Qed.

Lemma split_offsets_bound len n s o l : 1 <= n -> split_offsets len n = Some s -> In (o, l) s -> o + l <= len.
Proof.
  intros Hn E Hi. destruct (split_offsets_cover len n Hn) as (s' & E' & _ & C). rewrite E in E'.
  injection E' as <-. destruct l as [|l].
  - revert E Hi. unfold split_offsets. destruct (n =? 1) eqn:E1.
    + intros E. injection E as <-. intros [H|[]]. injection H as H1 H2. lia.
    + destruct (n =? 0) eqn:E0; [discriminate|]. intros E. injection E as <-. intros Hi.
      apply in_map_iff in Hi. destruct Hi as (p & Hp & Hi). injection Hp as <- _. apply in_seq in Hi.
      pose proof (Nat.mul_div_le len n ltac:(lia)). nia.
  - assert (In (o + l) (seq 0 len)).
    { rewrite <- C. apply in_concat. exists (seq o (S l)). split.
      - apply in_map_iff. exists (o, S l). auto.
      - apply in_seq. lia. }
    apply in_seq in H. lia.
Qed.

Lemma slice_some {X} (v : list X) a b : a <= b <= length v -> slice v a b = Some (firstn (b - a) (skipn a v)).
Proof.
  intros H. unfold slice.
  destruct (a <=? b) eqn:E1; [|apply Nat.leb_gt in E1; lia].
  destruct (b <=? length v) eqn:E2; [reflexivity|apply Nat.leb_gt in E2; lia].
Qed.

Lemma slice_map_nth {X} (v : list X) : forall l o, o + l <= length v ->
  map Some (firstn l (skipn o v)) = map (nth_error v) (seq o l).
Proof.
  induction l as [|l IH]; intros o H; [reflexivity|]. cbn [seq map].
  destruct (skipn o v) as [|x r] eqn:E.
  { pose proof (skipn_length o v). rewrite E in H0. simpl in H0. lia. }
  assert (Ex : nth_error v o = Some x).
  { clear - E. revert v E. induction o as [|o IH]; intros [|y v] E; simpl in *; try discriminate.
    - injection E as <- <-. reflexivity.
    - now apply IH. }
  cbn [firstn map]. rewrite Ex. f_equal. rewrite <- IH by lia.
  f_equal. f_equal. replace (S o) with (1 + o) by lia. clear - E. revert v E.
  induction o as [|o IH]; intros [|y v] E; simpl in *; try discriminate.
  - now injection E as <- <-.
  - rewrite <- (IH v E). reflexivity.
Qed.

Lemma map_Some_inj {X} : forall (a b : list X), map Some a = map Some b -> a = b.
Proof. induction a as [|x a IH]; intros [|y b] H; simpl in H; try discriminate; [reflexivity|]. injection H as -> H. f_equal. auto. Qed.

Lemma slices_cover {X} (v : list X) s :
  (forall o l, In (o, l) s -> o + l <= length v) ->
  concat (map (fun ol => seq (fst ol) (snd ol)) s) = seq 0 (length v) ->
  concat (map (fun ol => firstn (snd ol) (skipn (fst ol) v)) s) = v.
Proof.
  intros B C. apply map_Some_inj. rewrite concat_map, map_map.
  rewrite (map_ext_in _ (fun ol => map (nth_error v) (seq (fst ol) (snd ol)))).
  2:{ intros [o l] Hi. apply slice_map_nth. auto. }
  rewrite <- (map_map (fun ol => seq (fst ol) (snd ol)) (map (nth_error v))), <- concat_map, C.
  rewrite <- (slice_map_nth v (length v) 0) by lia. cbn [skipn]. now rewrite firstn_all.
Qed.

Lemma traverse_app {X Y} (f : X -> option Y) a b :
  traverse f (a ++ b) = match traverse f a, traverse f b with Some x, Some y => Some (x ++ y) | _, _ => None end.
Proof.
  induction a as [|x a IH]; cbn [app traverse].
  - destruct (traverse f b); reflexivity.
  - rewrite IH. destruct (f x); [|reflexivity]. destruct (traverse f a); [|reflexivity].
    destruct (traverse f b); reflexivity.
Qed.

Lemma traverse_concat {X Y} (f : X -> option Y) ls :
  match traverse (traverse f) ls with None => None | Some c => Some (concat c) end = traverse f (concat ls).
Proof.
  induction ls as [|l ls IH]; [reflexivity|]. cbn [traverse concat]. rewrite traverse_app, <- IH.
  destruct (traverse f l); [|reflexivity]. destruct (traverse (traverse f) ls); reflexivity.
Qed.

Lemma traverse_ext_in {X Y} (f g : X -> option Y) l : (forall x, In x l -> f x = g x) -> traverse f l = traverse g l.
Proof.
  intros H. induction l as [|x l IH]; [reflexivity|]. cbn [traverse].
  rewrite (H x) by now left. rewrite IH; [reflexivity|]. intros y Hy. apply H. now right.
Qed.

(** A chunked parallel loop is the sequential loop. *)
Lemma chunked_seq {X Y} n sched (items : list X) (g : X -> option Y) work :
  1 <= n -> Permutation sched (seq 0 n) ->
  (forall o l, o + l <= length items -> work o l = traverse g (firstn l (skipn o items))) ->
  chunked n sched (length items) work = traverse g items.
Proof.
  intros Hn P W. unfold chunked.
  destruct (split_offsets_cover (length items) n Hn) as (s & E & L & C). rewrite E.
  rewrite par_map_seq by (rewrite L; exact P).
  rewrite (traverse_ext_in _ (fun ol => traverse g (firstn (snd ol) (skipn (fst ol) items)))).
  2:{ intros [o l] Hi. apply W. exact (split_offsets_bound _ _ _ _ _ Hn E Hi). }
  rewrite <- (traverse_map (traverse g) (fun ol => firstn (snd ol) (skipn (fst ol) items))).
  rewrite traverse_concat, slices_cover; [reflexivity| |exact C].
  intros o l Hi. exact (split_offsets_bound _ _ _ _ _ Hn E Hi).
Qed.

Lemma firstn_combine {X Y} : forall k (a : list X) (b : list Y), firstn k (combine a b) = combine (firstn k a) (firstn k b).
Proof. induction k as [|k IH]; intros [|x a] [|y b]; simpl; try reflexivity. now rewrite IH. Qed.
Lemma skipn_combine {X Y} : forall k (a : list X) (b : list Y), length a = length b ->
  skipn k (combine a b) = combine (skipn k a) (skipn k b).
Proof.
  induction k as [|k IH]; intros [|x a] [|y b] H; simpl in *; try reflexivity; try discriminate.
  apply IH. lia.
Qed.

Section P.
Context (N : NumOps) (laws : NumLaws N).
Notation T := (carrier N).

Lemma skipn_skipn' {X} : forall a b (l : list X), skipn a (skipn b l) = skipn (a + b) l.
Proof.
  intros a b. revert a. induction b as [|b IH]; intros a l; [now rewrite Nat.add_0_r|].
  destruct l as [|x l]; [now rewrite !skipn_nil|]. cbn [skipn]. rewrite Nat.add_succ_r. cbn [skipn]. apply IH.
Qed.

Lemma map_seq_shift {X} (f : nat -> X) a : forall l b, map f (seq (a + b) l) = map (fun i => f (a + i)) (seq b l).
Proof. induction l as [|l IH]; intros b; [reflexivity|]. simpl. f_equal. rewrite <- Nat.add_succ_r. apply IH. Qed.

Lemma firstn_map_seq {X} (f : nat -> X) l : forall n b, l <= n -> firstn l (map f (seq b n)) = map f (seq b l).
Proof.
  induction l as [|l IH]; intros [|n] b H; try reflexivity; try lia. simpl. f_equal. apply IH. lia.
Qed.
Lemma skipn_map_seq {X} (f : nat -> X) o : forall n b, o <= n -> skipn o (map f (seq b n)) = map f (seq (o + b) (n - o)).
Proof.
  induction o as [|o IH]; intros [|n] b H; try reflexivity; try lia. simpl. rewrite IH by lia.
  now rewrite Nat.add_succ_r.
Qed.

Lemma chunk_slice m (data : list T) nrows o l : 0 < m -> length data = nrows * m -> o + l <= nrows ->
  exists sub, slice data (o * m) ((o + l) * m) = Some sub /\
    chunks_exact N m sub = firstn l (skipn o (chunks_exact N m data)).
Proof.
  intros Hm L B. rewrite slice_some by nia. eexists. split; [reflexivity|].
  unfold chunks_exact. rewrite !chunks_rows, L.
  rewrite firstn_length, skipn_length, L.
  replace (Nat.min ((o + l) * m - o * m) (nrows * m - o * m)) with (l * m) by nia.
  rewrite !Nat.div_mul by lia. rewrite skipn_map_seq by lia. rewrite firstn_map_seq by lia.
  rewrite map_seq_shift. apply map_ext_in. intros i Hi. apply in_seq in Hi.
  replace ((o + l) * m - o * m) with (l * m) by nia.
  rewrite (firstn_skipn_comm m (i * m) (firstn (l * m) _)), firstn_firstn.
  rewrite Nat.min_l by nia. rewrite <- firstn_skipn_comm. rewrite skipn_skipn'.
  replace (i * m + o * m) with ((o + i) * m) by nia. reflexivity.
Qed.
Lemma chunks_exact_length m (data : list T) nrows : 0 < m -> length data = nrows * m ->
  length (chunks_exact N m data) = nrows.
Proof.
  intros Hm L. unfold chunks_exact. rewrite chunks_rows, map_length, seq_length, L. apply Nat.div_mul. lia.
Qed.

Lemma rows_loop_par {Y} (f : list T -> option Y) m data nrows par : 0 < m -> length data = nrows * m ->
  par_ok par -> rows_loop N f m data par = traverse f (chunks_exact N m data).
Proof.
  intros Hm L P. destruct par as [[n sched]|]; [|reflexivity]. destruct P as [Hn P].
  cbn [rows_loop]. rewrite L, Nat.div_mul by lia. rewrite <- (chunks_exact_length m data nrows Hm L).
  apply chunked_seq; [exact Hn|exact P|]. intros o l B. rewrite (chunks_exact_length m data nrows Hm L) in B.
  destruct (chunk_slice m data nrows o l Hm L B) as (sub & -> & ->). reflexivity.
Qed.

Lemma knn_loop_par {A} (tr : nat * DIST N * kdt N A) mask data k nrows par maxb eps :
  0 < fst (fst tr) -> length data = nrows * fst (fst tr) -> length mask = nrows -> par_ok par ->
  knn_ptwise_w_dist N tr mask data k par maxb eps
  = traverse (knn_cell N tr k maxb eps) (combine mask (chunks_exact N (fst (fst tr)) data)).
Proof.
  intros Hm L Lm P. destruct par as [[n sched]|]; [|reflexivity]. destruct P as [Hn P].
  unfold knn_ptwise_w_dist. set (m := fst (fst tr)) in *. rewrite L, Nat.div_mul by lia.
  pose proof (chunks_exact_length m data nrows Hm L) as Lc.
  assert (LL : length (combine mask (chunks_exact N m data)) = nrows) by (rewrite combine_length; lia).
  rewrite <- LL at 1. apply chunked_seq; [exact Hn|exact P|]. intros o l B. rewrite LL in B.
  destruct (chunk_slice m data nrows o l Hm L B) as (sub & -> & ->).
  rewrite slice_some by lia. replace (o + l - o) with l by lia.
  rewrite skipn_combine by lia. now rewrite firstn_combine.
Qed.

Lemma cnt_loop_par (tr : nat * DIST N * kdt N unit) radius data nrows par :
  0 < fst (fst tr) -> length data = nrows * fst (fst tr) -> length radius = nrows -> par_ok par ->
  nb_cnt_w_radius N tr data radius par
  = traverse (cnt_cell_r N tr) (combine (chunks_exact N (fst (fst tr)) data) radius).
Proof.
  intros Hm L Lm P. destruct par as [[n sched]|]; [|reflexivity]. destruct P as [Hn P].
  unfold nb_cnt_w_radius. set (m := fst (fst tr)) in *. rewrite L, Nat.div_mul by lia.
  pose proof (chunks_exact_length m data nrows Hm L) as Lc.
  assert (LL : length (combine (chunks_exact N m data) radius) = nrows) by (rewrite combine_length; lia).
  rewrite <- LL at 1. apply chunked_seq; [exact Hn|exact P|]. intros o l B. rewrite LL in B.
  destruct (chunk_slice m data nrows o l Hm L B) as (sub & -> & ->).
  rewrite slice_some by lia. replace (o + l - o) with l by lia.
  rewrite skipn_combine by lia. now rewrite firstn_combine.
Qed.

(** ** The row-major buffer *)
Lemma interleaving_perm {X} (tasks : list (list X)) trace : interleaving tasks trace -> Permutation trace (concat tasks).
Proof.
  induction 1 as [tasks F|before x t after trace I IH].
  - replace (concat tasks) with (@nil X); [constructor|]. symmetry. clear - F. induction F as [|t ts E F IH]; simpl; [reflexivity|].
    now rewrite E, IH.
  - rewrite concat_app in IH |- *. cbn [concat] in *. rewrite IH. cbn [app]. now rewrite <- Permutation_middle.
Qed.

Lemma chunk_writes_eq m j : forall vals start,
  chunk_writes N m j start vals = map (fun iv => (j + fst iv * m, nan_of N (snd iv))) (combine (seq start (length vals)) vals).
Proof. induction vals as [|v vals IH]; intros start; [reflexivity|]. simpl. f_equal. apply IH. Qed.

Lemma combine_app_eq {X Y} : forall (a a' : list X) (b b' : list Y), length a = length b ->
  combine (a ++ a') (b ++ b') = combine a b ++ combine a' b'.
Proof. induction a as [|x a IH]; intros a' [|y b] b' H; simpl in *; try discriminate; [reflexivity|]. f_equal. apply IH. lia. Qed.

Lemma col_writes_eq m j : forall c off,
  col_writes N m j off c = map (fun iv => (j + fst iv * m, nan_of N (snd iv))) (combine (seq off (length (cells c))) (cells c)).
Proof.
  induction c as [|vals c IH]; intros off; [reflexivity|]. cbn [col_writes]. rewrite IH, chunk_writes_eq, <- map_app.
  f_equal. unfold cells. cbn [concat]. rewrite app_length, seq_app, combine_app_eq; [reflexivity|apply seq_length].
Qed.

Lemma all_writes_nth m : forall cols j0 j c, nth_error cols j = Some c ->
  In (col_writes N m (j0 + j) 0 c) (all_writes N m j0 cols).
Proof.
  induction cols as [|c0 cols IH]; intros j0 [|j] c H; try discriminate.
  - injection H as ->. rewrite Nat.add_0_r. now left.
  - right. rewrite Nat.add_succ_r. change (S (j0 + j)) with (S j0 + j). now apply IH.
Qed.
Lemma all_writes_length m h : forall cols j0, Forall (fun c => length (cells c) = h) cols ->
  length (concat (all_writes N m j0 cols)) = length cols * h.
Proof.
  induction cols as [|c cols IH]; intros j0 F; [reflexivity|]. apply Forall_cons_iff in F. destruct F as [Hc F].
  cbn [all_writes concat length]. rewrite app_length, IH by exact F.
  rewrite col_writes_eq, map_length, combine_length, seq_length. lia.
Qed.

Lemma set_nth_other {X} : forall (v : list X) i x v', set_nth v i x = Some v' ->
  length v' = length v /\ forall k, nth_error v' k = if k =? i then Some x else nth_error v k.
Proof.
  induction v as [|y v IH]; intros [|i] x v' E; simpl in E; try discriminate.
  - injection E as <-. split; [reflexivity|]. intros [|k]; reflexivity.
  - destruct (set_nth v i x) as [w|] eqn:Ew; [|discriminate]. injection E as <-.
    destruct (IH i x w Ew) as [L H]. split; [simpl; lia|]. intros [|k]; [reflexivity|]. simpl. apply H.
Qed.

Lemma run_writes_ok : forall trace mem, Forall (fun iv => fst iv < length mem) trace -> NoDup (map fst trace) ->
  exists mem', run_writes N mem trace = Some mem' /\ length mem' = length mem /\
    (forall i v, In (i, v) trace -> nth_error mem' i = Some (Some v)) /\
    (forall i, ~ In i (map fst trace) -> nth_error mem' i = nth_error mem i).
Proof.
  induction trace as [|[i v] trace IH]; intros mem B D.
  - exists mem. repeat split. contradiction.
  - apply Forall_cons_iff in B. destruct B as [Bi B]. simpl in Bi. inversion D as [|? ? Di D']; subst.
    destruct (set_nth_some mem i (Some v) Bi) as (mem1 & E & _).
    destruct (set_nth_other _ _ _ _ E) as [L1 H1].
    destruct (IH mem1) as (mem' & E' & L' & HI & HO); [now rewrite L1|exact D'|].
    exists mem'. cbn [run_writes]. rewrite E. split; [exact E'|]. split; [congruence|]. split.
    + intros i' v' [Heq|Hin]; [|now apply HI]. injection Heq as <- <-.
      rewrite HO by exact Di. rewrite H1, Nat.eqb_refl. reflexivity.
    + intros i' Hn. simpl in Hn. rewrite HO by tauto. rewrite H1. destruct (i' =? i) eqn:Ei; [|reflexivity].
      apply Nat.eqb_eq in Ei. subst. tauto.
Qed.

Lemma flat_map_nth {X} (f : nat -> list X) m : (forall i, length (f i) = m) ->
  forall h s i j, i < h -> j < m -> nth_error (flat_map f (seq s h)) (i * m + j) = nth_error (f (s + i)) j.
Proof.
  intros Lf. induction h as [|h IH]; intros s i j Hi Hj; [lia|]. cbn [seq flat_map].
  destruct i as [|i].
  - rewrite nth_error_app1 by (rewrite Lf; lia). now rewrite Nat.add_0_r.
  - rewrite nth_error_app2 by (rewrite Lf; nia). rewrite Lf.
    replace (S i * m + j - m) with (i * m + j) by nia. rewrite IH by lia. now rewrite Nat.add_succ_r.
Qed.
Lemma flat_map_len {X} (f : nat -> list X) m : (forall i, length (f i) = m) -> forall h s, length (flat_map f (seq s h)) = h * m.
Proof. intros Lf. induction h as [|h IH]; intros s; [reflexivity|]. cbn [seq flat_map]. rewrite app_length, Lf, IH. lia. Qed.

Lemma combine_seq_nth {X} : forall (l : list X) s i x, nth_error l i = Some x -> In (s + i, x) (combine (seq s (length l)) l).
Proof.
  induction l as [|y l IH]; intros s [|i] x H; simpl in H; try discriminate.
  - injection H as ->. rewrite Nat.add_0_r. now left.
  - right. rewrite Nat.add_succ_r. change (S (s + i)) with (S s + i). now apply IH.
Qed.

Lemma row_at_length cols i : length (row_at N cols i) = length cols.
Proof. apply map_length. Qed.

Lemma nan_of_cell i c : i < length (cells c) -> exists o, nth_error (cells c) i = Some o /\ nan_of N o = cell N i c.
Proof.
  intros Hi. destruct (nth_error_ex' _ _ Hi) as [o Ho]. exists o. split; [exact Ho|].
  unfold cell. now rewrite (nth_error_nth _ _ None Ho).
Qed.

Lemma traverse_id_Some {X} (l : list X) : traverse (fun o => o) (map Some l) = Some l.
Proof. induction l as [|x l IH]; [reflexivity|]. cbn [map traverse]. now rewrite IH. Qed.

Lemma row_major_ok h cols trace : table N h cols ->
  interleaving (all_writes N (length cols) 0 cols) trace ->
  series_to_row_major_slice N cols trace = Ok (flat_map (row_at N cols) (seq 0 h)).
Proof.
  intros [NE F] I. destruct cols as [|c0 rest]; [congruence|].
  set (cols := c0 :: rest) in *. set (m := length cols) in *.
  assert (Hm : 0 < m) by (unfold m, cols; simpl; lia).
  assert (H0 : length (cells c0) = h) by (apply Forall_inv in F; exact F).
  unfold series_to_row_major_slice. unfold cols at 1. rewrite H0. fold m.
  replace (forallb (fun c => length (cells c) =? h) rest) with true.
  2:{ symmetry. apply forallb_forall. intros c Hc. apply Nat.eqb_eq. rewrite Forall_forall in F. apply F. now right. }
  pose proof (interleaving_perm _ _ I) as P.
  assert (IN : forall i j c, i < h -> nth_error cols j = Some c -> In (i * m + j, cell N i c) trace).
  { intros i j c Hi Hj. eapply Permutation_in; [symmetry; exact P|]. apply in_concat.
    exists (col_writes N m (0 + j) 0 c). split; [now apply all_writes_nth|]. rewrite col_writes_eq.
    apply in_map_iff. assert (Hc : length (cells c) = h).
    { rewrite Forall_forall in F. apply F. eapply nth_error_In, Hj. }
    destruct (nan_of_cell i c ltac:(lia)) as (o & Ho & Eo). exists (0 + i, o). cbn [fst snd]. split.
    - rewrite Eo. f_equal. lia.
    - now apply combine_seq_nth. }
  assert (COV : forall x, x < h * m -> In x (map fst trace)).
  { intros x Hx. pose proof (Nat.div_mod x m ltac:(lia)) as DM. pose proof (Nat.mod_upper_bound x m ltac:(lia)) as Mb.
    assert (Hi : x / m < h) by (apply Nat.div_lt_upper_bound; lia).
    destruct (nth_error_ex' cols (x mod m) Mb) as [c Hc].
    pose proof (IN _ _ _ Hi Hc) as H. apply (in_map fst) in H. cbn [fst] in H.
    replace (x / m * m + x mod m) with x in H by lia. exact H. }
  assert (LT : length (map fst trace) = h * m).
  { rewrite map_length, (Permutation_length P), (all_writes_length m h cols 0 F). fold m. lia. }
  assert (ND : NoDup (map fst trace)).
  { apply (NoDup_incl_NoDup (l := seq 0 (h * m))); [apply seq_NoDup|rewrite seq_length; lia|].
    intros x Hx. apply in_seq in Hx. apply COV. lia. }
  assert (BD : Forall (fun iv => fst iv < length (repeat (@None T) (h * m))) trace).
  { rewrite repeat_length. apply Forall_forall. intros [x v] Hx. cbn [fst].
    assert (Hx' : In x (seq 0 (h * m))).
    { apply (NoDup_length_incl (l := seq 0 (h * m)) (l' := map fst trace)); [apply seq_NoDup|rewrite seq_length; lia| |].
      - intros y Hy. apply in_seq in Hy. apply COV. lia.
      - apply (in_map fst) in Hx. exact Hx. }
    apply in_seq in Hx'. lia. }
  destruct (run_writes_ok trace _ BD ND) as (mem & E & L & HI & _). rewrite E.
  assert (EQ : mem = map Some (flat_map (row_at N cols) (seq 0 h))).
  { rewrite repeat_length in L. pose proof (flat_map_len (row_at N cols) m (row_at_length cols) h 0) as Lf.
    apply nth_error_ext. intros x. destruct (Nat.lt_ge_cases x (h * m)) as [Hx|Hx].
    - pose proof (Nat.div_mod x m ltac:(lia)) as DM. pose proof (Nat.mod_upper_bound x m ltac:(lia)) as Mb.
      assert (Hi : x / m < h) by (apply Nat.div_lt_upper_bound; lia).
      destruct (nth_error_ex' cols (x mod m) Mb) as [c Hc].
      pose proof (HI _ _ (IN _ _ _ Hi Hc)) as H.
      replace (x / m * m + x mod m) with x in H by lia. rewrite H.
      replace x with (x / m * m + x mod m) at 2 by lia.
      symmetry. apply map_nth_error.
      rewrite (flat_map_nth (row_at N cols) m (row_at_length cols)) by assumption.
      unfold row_at. now apply map_nth_error.
    - rewrite (proj2 (nth_error_None _ _)) by lia. symmetry. apply nth_error_None. rewrite map_length. lia. }
  rewrite EQ, traverse_id_Some. reflexivity.
Qed.
End P.

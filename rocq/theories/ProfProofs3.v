(** Proofs about the histogram and the outliers of numeric_profile. *)
From Coq Require Import String Bool List Arith ZArith Reals Lra Lia Permutation Sorted.
From Verif Require Import MetricSpec WinsProofs DiaModel DepModel ProfModel ProfSpec ProfProofs2.
Import ListNotations.
Open Scope nat_scope.
Open Scope list_scope.

Lemma obin_iff a b : obin_eqb a b = true <-> a = b.
Proof. destruct a as [a|], b as [b|]; cbn; try (split; [discriminate|congruence]); [|now split]. rewrite Nat.eqb_eq. split; congruence. Qed.
Lemma count_cons {A} (p : A -> bool) a l : count p (a :: l) = (if p a then 1 else 0) + count p l.
Proof. unfold count. cbn [filter]. now destruct (p a). Qed.
Lemma count_none {A} (p : A -> bool) l : (forall a, In a l -> p a = false) -> count p l = 0.
Proof. induction l as [|a l IH]; intro H; [reflexivity|]. rewrite count_cons, H, IH; [reflexivity| |now left]. intros b I. apply H. now right. Qed.
Lemma count_all {A} (p : A -> bool) l : (forall a, In a l -> p a = true) -> count p l = length l.
Proof. induction l as [|a l IH]; intro H; [reflexivity|]. rewrite count_cons, H, IH; [reflexivity| |now left]. intros b I. apply H. now right. Qed.
Lemma count_ext {A} (p q : A -> bool) l : (forall a, In a l -> p a = q a) -> count p l = count q l.
Proof. induction l as [|a l IH]; intro H; [reflexivity|]. rewrite !count_cons, H, IH; [reflexivity| |now left]. intros b I. apply H. now right. Qed.
Lemma count_app {A} (p : A -> bool) l r : count p (l ++ r) = count p l + count p r.
Proof. unfold count. rewrite filter_app, app_length. reflexivity. Qed.
Lemma count_map {A B} (p : B -> bool) (g : A -> B) l : count p (map g l) = count (fun a => p (g a)) l.
Proof. apply filter_map_len. Qed.
Lemma count_le {A} (p : A -> bool) l : count p l <= length l.
Proof. induction l as [|a l IH]; [cbn; lia|]. rewrite count_cons. cbn [length]. destruct (p a); lia. Qed.
Lemma count_mono {A} (p q : A -> bool) l : (forall a, In a l -> p a = true -> q a = true) -> count p l <= count q l.
Proof.
  induction l as [|a l IH]; intro H; [cbn; lia|]. rewrite !count_cons. assert (count p l <= count q l) by (apply IH; intros b I; apply H; now right).
  assert (K := H a (or_introl eq_refl)). destruct (p a), (q a); try lia; discriminate K; reflexivity.
Qed.
Lemma part_sum keys : NoDup keys -> forall l, (forall x, In x l -> In x keys) -> list_sum (map (fun k => count (obin_eqb k) l) keys) = length l.
Proof.
  intros N l. induction l as [|x l IH]; intro H.
  - clear. induction keys as [|k ks IH]; [reflexivity|]. cbn [map list_sum fold_right]. exact IH.
  - cbn [length]. rewrite <- IH; [|intros y I; apply H; now right]. clear IH. assert (I := H x (or_introl eq_refl)). clear H. revert I.
    induction N as [|k ks NI N IH]; [contradiction|]. intro I. cbn [map list_sum fold_right]. rewrite count_cons.
    destruct (obin_eqb k x) eqn:E.
    + apply obin_iff in E. subst k. assert (Z : map (fun k => count (obin_eqb k) (x :: l)) ks = map (fun k => count (obin_eqb k) l) ks).
      { apply map_ext_in. intros k J. rewrite count_cons. destruct (obin_eqb k x) eqn:F; [|reflexivity]. apply obin_iff in F. subst. contradiction. }
      rewrite Z. fold (list_sum (map (fun k => count (obin_eqb k) l) ks)). lia.
    + destruct I as [->|I]; [rewrite (proj2 (obin_iff x x) eq_refl) in E; discriminate|]. specialize (IH I). unfold list_sum in IH at 1. rewrite IH. unfold list_sum. lia.
Qed.
Lemma sum_pos l : list_sum (filter (fun k => Nat.ltb 0 k) l) = list_sum l.
Proof. induction l as [|[|a] l IH]; [reflexivity| |]; cbn [filter Nat.ltb Nat.leb]; [exact IH|]. change (S a + list_sum (filter (fun k => Nat.ltb 0 k) l) = S a + list_sum l). now rewrite IH. Qed.
Definition keys (n : nat) : list (option nat) := None :: map Some (seq 0 (S n)).
Lemma keys_nodup n : NoDup (keys n).
Proof. constructor; [rewrite in_map_iff; intros (a & E & _); discriminate|]. apply FinFun.Injective_map_NoDup; [intros a b E; now injection E|apply seq_NoDup]. Qed.
Lemma bin_keys n v : In (bin (cuts n) v) (keys n).
Proof.
  destruct v as [x| | |]; cbn [bin]; try now left. right. apply in_map. apply in_seq. split; [lia|]. pose proof (count_le (fun c => if Rle_dec c x then true else false) (cuts n)) as H.
  unfold cuts in H at 2. rewrite map_length, seq_length in H. lia.
Qed.
Definition bins n c : list (option nat) := map (fun x => bin (cuts n) (scaled (xmin (ordered c)) (xmax (ordered c)) x)) (finites c).
Lemma hist_unfold n c : 0 < n -> histogram n c = Some (filter (fun k => Nat.ltb 0 k) (map (fun b => count (obin_eqb b) (bins n c)) (keys n))).
Proof. intro H. unfold histogram. destruct (Nat.eqb_spec n 0); [lia|]. reflexivity. Qed.
Lemma hist_total n c : 0 < n -> exists h, histogram n c = Some h /\ list_sum h = length (fin_values c) /\ Forall (fun k => 0 < k) h.
Proof.
  intro H. eexists. split; [exact (hist_unfold n c H)|]. split.
  - rewrite sum_pos, part_sum; [|apply keys_nodup|].
    + unfold bins. now rewrite map_length.
    + intros x I. apply in_map_iff in I. destruct I as (y & <- & _). apply bin_keys.
  - apply Forall_forall. intros k I. apply filter_In in I. destruct I as [_ I]. now apply Nat.ltb_lt.
Qed.
Lemma one_bin ks b l : NoDup ks -> In b ks -> l <> [] -> (forall x, In x l -> x = b) ->
  filter (fun k => Nat.ltb 0 k) (map (fun k => count (obin_eqb k) l) ks) = [length l].
Proof.
  intros N I L H. induction N as [|k ks NI N IH]; [contradiction|]. cbn [map filter].
  assert (Z : forall k', k' <> b -> count (obin_eqb k') l = 0).
  { intros k' D. apply count_none. intros x J. rewrite (H x J). destruct (obin_eqb k' b) eqn:E; [|reflexivity]. apply obin_iff in E. contradiction. }
  destruct I as [->|I].
  - rewrite (count_all (obin_eqb b) l); [|intros x J; apply obin_iff; symmetry; auto]. destruct l as [|x l]; [contradiction|]. cbn [length Nat.ltb Nat.leb].
    f_equal. clear IH N. induction ks as [|k ks IH]; [reflexivity|]. cbn [map filter]. rewrite Z; [|intros ->; apply NI; now left]. cbn [Nat.ltb Nat.leb]. apply IH. intro J. apply NI. now right.
  - rewrite Z; [|intros ->; contradiction]. cbn [Nat.ltb Nat.leb]. now apply IH.
Qed.

(** Order. *)
Lemma xleb_refl a : a <> NaN -> xleb a a = true.
Proof. destruct a; cbn; try reflexivity; try congruence. intros _. destruct (Rle_dec r r); [reflexivity|lra]. Qed.
Lemma xleb_trans a b c : xleb a b = true -> xleb b c = true -> xleb a c = true.
Proof.
  destruct a as [x| | |], b as [y| | |], c as [z| | |]; cbn; try congruence. destruct (Rle_dec x y), (Rle_dec y z), (Rle_dec x z); try congruence. lra.
Qed.
Lemma xleb_total a b : a <> NaN -> b <> NaN -> xleb a b = false -> xleb b a = true.
Proof. destruct a as [x| | |], b as [y| | |]; cbn; try congruence. destruct (Rle_dec x y), (Rle_dec y x); try congruence. lra. Qed.
Lemma xmin_spec l : l <> [] -> ~ In NaN l -> In (xmin l) l /\ forall x, In x l -> xleb (xmin l) x = true.
Proof.
  destruct l as [|x r]; [contradiction|]. intros _. unfold xmin. revert x. induction r as [|y r IH]; intros x N; cbn [fold_left].
  - split; [now left|]. intros z [<-|[]]. apply xleb_refl. intros ->. apply N. now left.
  - assert (Nx : x <> NaN) by (intros ->; apply N; now left). assert (Ny : y <> NaN) by (intros ->; apply N; right; now left).
    destruct (xleb x y) eqn:E.
    + destruct (IH x) as [I F]; [intros [->|J]; [congruence|apply N; right; now right]|]. split; [destruct I as [I|I]; [left|right; right]; assumption|].
      intros z [<-|[<-|J]]; [apply F; now left| |apply F; now right]. apply xleb_trans with x; [apply F; now left|exact E].
    + destruct (IH y) as [I F]; [intros [->|J]; [congruence|apply N; right; now right]|]. split; [right; exact I|].
      intros z [<-|[<-|J]]; [|apply F; now left|apply F; now right]. apply xleb_trans with y; [apply F; now left|now apply xleb_total].
Qed.
Lemma xmax_spec l : l <> [] -> ~ In NaN l -> In (xmax l) l /\ forall x, In x l -> xleb x (xmax l) = true.
Proof.
  destruct l as [|x r]; [contradiction|]. intros _. unfold xmax. revert x. induction r as [|y r IH]; intros x N; cbn [fold_left].
  - split; [now left|]. intros z [<-|[]]. apply xleb_refl. intros ->. apply N. now left.
  - assert (Nx : x <> NaN) by (intros ->; apply N; now left). assert (Ny : y <> NaN) by (intros ->; apply N; right; now left).
    destruct (xleb x y) eqn:E.
    + destruct (IH y) as [I F]; [intros [->|J]; [congruence|apply N; right; now right]|]. split; [right; exact I|].
      intros z [<-|[<-|J]]; [|apply F; now left|apply F; now right]. apply xleb_trans with y; [exact E|apply F; now left].
    + destruct (IH x) as [I F]; [intros [->|J]; [congruence|apply N; right; now right]|]. split; [destruct I as [I|I]; [left|right; right]; assumption|].
      intros z [<-|[<-|J]]; [apply F; now left| |apply F; now right]. apply xleb_trans with x; [now apply xleb_total|apply F; now left].
Qed.
Lemma ordered_In c x : In x (ordered c) <-> In (Some x) c /\ x <> NaN.
Proof.
  unfold ordered. rewrite in_flat_map. split.
  - intros ([[]|] & I & J); cbn in J; try contradiction; destruct J as [<-|[]]; split; (assumption || discriminate).
  - intros [I N]. exists (Some x). split; [exact I|]. destruct x; try (now left). congruence.
Qed.
Lemma fin_In c x : In x (fin_values c) <-> In (Some (Fin x)) c.
Proof.
  unfold fin_values. rewrite in_flat_map. split.
  - intros ([[]|] & I & J); cbn in J; try contradiction; destruct J as [<-|[]]; assumption.
  - intro I. exists (Some (Fin x)). split; [exact I|]. now left.
Qed.
Definition x_dec : forall a b : xnum, {a = b} + {a <> b}.
Proof. decide equality. apply Req_EM_T. Defined.
Definition ox_dec : forall a b : option xnum, {a = b} + {a <> b}.
Proof. decide equality. apply x_dec. Defined.
Lemma ord_n c : In (Some NInf) c -> In NInf (ordered c).
Proof. intro I. apply ordered_In. split; [exact I|discriminate]. Qed.
Lemma ord_p c : In (Some PInf) c -> In PInf (ordered c).
Proof. intro I. apply ordered_In. split; [exact I|discriminate]. Qed.
Lemma ord_f c x : In x (fin_values c) -> In (Fin x) (ordered c).
Proof. intro I. apply ordered_In. split; [now apply fin_In|discriminate]. Qed.
Section Ext.
Context (c : list (option xnum)).
Hypothesis NE : fin_values c <> [].
Lemma ord_ne : ordered c <> [] /\ ~ In NaN (ordered c).
Proof.
  split; [|intro I; apply ordered_In in I; now destruct I]. intro E. destruct (fin_values c) as [|x l] eqn:F; [contradiction|].
  assert (I : In (Fin x) (ordered c)) by (apply ordered_In; split; [apply fin_In; rewrite F; now left|discriminate]). rewrite E in I. contradiction.
Qed.
Lemma min_facts : In (xmin (ordered c)) (ordered c) /\ forall x, In x (ordered c) -> xleb (xmin (ordered c)) x = true.
Proof. destruct ord_ne. now apply xmin_spec. Qed.
Lemma max_facts : In (xmax (ordered c)) (ordered c) /\ forall x, In x (ordered c) -> xleb x (xmax (ordered c)) = true.
Proof. destruct ord_ne. now apply xmax_spec. Qed.
Lemma min_ninf : In (Some NInf) c -> xmin (ordered c) = NInf.
Proof. intro I. destruct min_facts as [_ F]. assert (G := F NInf (ord_n c I)). destruct (xmin _); cbn in G; congruence. Qed.
Lemma max_pinf : In (Some PInf) c -> xmax (ordered c) = PInf.
Proof. intro I. destruct max_facts as [_ F]. assert (G := F PInf (ord_p c I)). destruct (xmax _); cbn in G; congruence. Qed.
Lemma min_fin lo : ~ In (Some NInf) c -> least (fin_values c) lo -> xmin (ordered c) = Fin lo.
Proof.
  intros N [I L]. destruct min_facts as [J F]. assert (G := F (Fin lo) (ord_f c lo I)).
  apply ordered_In in J. destruct J as [J _]. destruct (xmin (ordered c)) as [r| | |]; cbn in G; try discriminate G; [|contradiction].
  destruct (Rle_dec r lo); [|discriminate]. apply fin_In in J. apply L in J. f_equal. lra.
Qed.
Lemma max_fin hi : ~ In (Some PInf) c -> greatest (fin_values c) hi -> xmax (ordered c) = Fin hi.
Proof.
  intros N [I L]. destruct max_facts as [J F]. assert (G := F (Fin hi) (ord_f c hi I)).
  apply ordered_In in J. destruct J as [J _]. destruct (xmax (ordered c)) as [r| | |]; cbn in G; try discriminate G; [|contradiction].
  destruct (Rle_dec hi r); [|discriminate]. apply fin_In in J. apply L in J. f_equal. lra.
Qed.
Lemma hist_one n : 0 < n -> In (Some PInf) c \/ In (Some NInf) c \/ (exists a, least (fin_values c) a /\ greatest (fin_values c) a) ->
  histogram n c = Some [length (fin_values c)].
Proof.
  intros H D. rewrite hist_unfold by exact H. f_equal. 
  assert (G : exists v, forall x, In x (fin_values c) -> scaled (xmin (ordered c)) (xmax (ordered c)) x = v).
  { destruct (in_dec ox_dec (Some NInf) c) as [N|N].
    - rewrite (min_ninf N). exists NaN. reflexivity.
    - destruct (in_dec ox_dec (Some PInf) c) as [P|P].
      + rewrite (max_pinf P). destruct (xmin (ordered c)); [exists (Fin 0)|exists NaN|exists NaN|exists NaN]; reflexivity.
      + destruct D as [D|[D|(a & LA & GA)]]; [contradiction..|]. rewrite (min_fin a N LA), (max_fin a P GA). exists NaN. intros x _. cbn [scaled]. destruct (Req_EM_T a a); [reflexivity|contradiction]. }
  destruct G as [v G]. rewrite (one_bin (keys n) (bin (cuts n) v)).
  - unfold bins. now rewrite map_length.
  - apply keys_nodup.
  - apply bin_keys.
  - unfold bins. change (finites c) with (fin_values c). destruct (fin_values c); [contradiction|discriminate].
  - intros x I. apply in_map_iff in I. destruct I as (y & <- & I). now rewrite G.
Qed.
End Ext.

(** Bins. *)
Lemma count_prefix (P : nat -> bool) n : (forall i j, i <= j -> j < n -> P j = true -> P i = true) ->
  forall j, j < n -> (count P (seq 0 n) = S j <-> P j = true /\ (S j = n \/ P (S j) = false)).
Proof.
  intros M j J.
  assert (A : forall k, k <= n -> (forall i, i < k -> P i = true) -> (k = n \/ P k = false) -> count P (seq 0 n) = k).
  { intros k K T F. replace n with (k + (n - k)) by lia. rewrite seq_app, count_app. rewrite (count_all P (seq 0 k)), seq_length; [|intros a I; apply in_seq in I; apply T; lia].
    rewrite (count_none P (seq (0 + k) (n - k))); [lia|]. intros a I. apply in_seq in I. destruct F as [F|F]; [lia|]. destruct (P a) eqn:E; [|reflexivity]. rewrite <- F. symmetry. apply (M k a); auto; lia. }
  split.
  - intro C. split.
    + destruct (P j) eqn:E; [reflexivity|]. exfalso.
      assert (B : count P (seq 0 n) <= j); [|lia]. replace n with (j + (n - j)) by lia. rewrite seq_app, count_app. pose proof (count_le P (seq 0 j)). rewrite seq_length in H.
      rewrite (count_none P (seq (0 + j) (n - j))); [lia|]. intros a I. apply in_seq in I. destruct (P a) eqn:F; [|reflexivity]. rewrite <- E. symmetry. apply (M j a); auto; lia.
    + destruct (Nat.eq_dec (S j) n) as [|N]; [now left|right]. destruct (P (S j)) eqn:E; [|reflexivity]. exfalso.
      assert (B : S (S j) <= count P (seq 0 n)); [|lia]. replace n with (S (S j) + (n - S (S j))) by lia. rewrite seq_app, count_app, (count_all P (seq 0 (S (S j)))), seq_length; [lia|].
      intros a I. apply in_seq in I. apply (M a (S j)); auto; lia.
  - intros [T F]. apply A; [lia| |exact F]. intros i I. apply (M i j); auto; lia.
Qed.
Definition cutv (n i : nat) : R := (INR i / INR n - (if Nat.eqb i 0 then eps5 else 0) + (if Nat.eqb (S i) n then eps5 else 0))%R.
Lemma cutv_mono n i j : i <= j -> j < n -> (cutv n i <= cutv n j)%R.
Proof.
  intros H J. destruct (Nat.eq_dec i j) as [->|D]; [lra|]. unfold cutv.
  assert (N : (0 < INR n)%R) by (apply (lt_INR 0); lia). assert (I := Rinv_0_lt_compat _ N).
  assert (L : (INR i / INR n <= INR j / INR n)%R). { unfold Rdiv. apply Rmult_le_compat_r; [lra|]. apply le_INR. lia. }
  unfold eps5. destruct (Nat.eqb_spec (S i) n); [lia|]. destruct (Nat.eqb_spec j 0); [lia|]. destruct (Nat.eqb i 0), (Nat.eqb (S j) n); lra.
Qed.
Lemma edge_0 n : edge n 0 = 0%R.
Proof. unfold edge. rewrite andb_false_r. cbn [INR]. unfold Rdiv. ring. Qed.
Lemma edge_cut n j : 0 < j -> j < n -> edge n j = cutv n j.
Proof.
  intros J H. unfold edge, cutv, eps5. destruct (Nat.eqb_spec j 0); [lia|]. cbn [negb]. rewrite andb_true_r.
  destruct (Nat.eqb_spec j (n - 1)), (Nat.eqb_spec (S j) n); try lia; lra.
Qed.
Lemma cutv_0 n : (cutv n 0 <= 0)%R.
Proof. unfold cutv, eps5. cbn [Nat.eqb INR]. unfold Rdiv. destruct n as [|[|]]; cbn [Nat.eqb]; lra. Qed.
Lemma bin_in lo hi n j x : (lo < hi)%R -> (lo <= x)%R -> j < n ->
  obin_eqb (Some (S j)) (bin (cuts n) (Fin ((x - lo) / (hi - lo)))) = in_bin lo hi n j x.
Proof.
  intros H X J. set (v := ((x - lo) / (hi - lo))%R).
  assert (V0 : (0 <= v)%R) by (unfold v, Rdiv; apply Rmult_le_pos; [lra|apply Rlt_le, Rinv_0_lt_compat; lra]).
  assert (VX : (x = lo + (hi - lo) * v)%R) by (unfold v; field; lra).
  assert (LE : forall e, (e <= v)%R <-> (lo + (hi - lo) * e <= x)%R) by (intro e; rewrite VX; split; intro; nra).
  assert (LT : forall e, (v < e)%R <-> (x < lo + (hi - lo) * e)%R) by (intro e; rewrite VX; split; intro; nra).
  apply eq_true_iff_eq. rewrite obin_iff. cbn [bin]. unfold cuts. rewrite count_map. fold (cutv n). 
  change (fun i => if Rle_dec (INR i / INR n - (if Nat.eqb i 0 then eps5 else 0) + (if Nat.eqb (S i) n then eps5 else 0)) v then true else false) with (fun i => if Rle_dec (cutv n i) v then true else false).
  transitivity (count (fun i => if Rle_dec (cutv n i) v then true else false) (seq 0 n) = S j); [split; congruence|].
  rewrite count_prefix; [|intros a b AB B; destruct (Rle_dec (cutv n b) v), (Rle_dec (cutv n a) v); try congruence; assert (Q := cutv_mono n a b AB B); lra|exact J].
  unfold in_bin. rewrite andb_true_iff, orb_true_iff, Nat.eqb_eq.
  assert (P1 : (if Rle_dec (cutv n j) v then true else false) = true <-> (if Rle_dec (lo + (hi - lo) * edge n j) x then true else false) = true).
  { destruct (Nat.eq_dec j 0) as [->|D].
    - rewrite edge_0. assert (C := cutv_0 n). destruct (Rle_dec (cutv n 0) v), (Rle_dec (lo + (hi - lo) * 0) x); (split; congruence) || lra.
    - rewrite edge_cut by lia. specialize (LE (cutv n j)). destruct (Rle_dec (cutv n j) v), (Rle_dec (lo + (hi - lo) * cutv n j) x); (split; congruence) || tauto. }
  rewrite P1. destruct (Nat.eq_dec (S j) n) as [E|D]; [tauto|].
  rewrite (edge_cut n (S j)) by lia. specialize (LT (cutv n (S j))).
  assert (P2 : (if Rle_dec (cutv n (S j)) v then true else false) = false <-> (if Rlt_dec x (lo + (hi - lo) * cutv n (S j)) then true else false) = true).
  { destruct (Rle_dec (cutv n (S j)) v), (Rlt_dec x (lo + (hi - lo) * cutv n (S j))); split; intro; try congruence; exfalso; try (apply LT in r0; lra). apply n1, LT. lra. }
  rewrite P2. reflexivity.
Qed.
Lemma hist_bins n c lo hi : 0 < n -> ~ In (Some PInf) c -> ~ In (Some NInf) c -> least (fin_values c) lo -> greatest (fin_values c) hi -> (lo < hi)%R ->
  histogram n c = Some (filter (fun k => Nat.ltb 0 k) (map (fun j => how_many (in_bin lo hi n j) (fin_values c)) (seq 0 n))).
Proof.
  intros H P N L G D. assert (NE : fin_values c <> []) by (destruct L as [I _]; intro E; rewrite E in I; contradiction).
  rewrite hist_unfold by exact H. f_equal. unfold keys. cbn [seq]. rewrite <- seq_shift. cbn [map]. rewrite !map_map.
  assert (B : forall x, In x (fin_values c) -> bin (cuts n) (scaled (xmin (ordered c)) (xmax (ordered c)) x) = bin (cuts n) (Fin ((x - lo) / (hi - lo)))).
  { intros x _. rewrite (min_fin c NE lo N L), (max_fin c NE hi P G). cbn [scaled]. destruct (Req_EM_T lo hi); [lra|reflexivity]. }
  assert (F : forall p, count p (bins n c) = count (fun x => p (bin (cuts n) (Fin ((x - lo) / (hi - lo))))) (fin_values c)).
  { intro p. unfold bins. change (finites c) with (fin_values c). rewrite count_map. apply count_ext. intros x I. now rewrite B. }
  rewrite (F (obin_eqb None)), count_none; [|reflexivity].
  rewrite (F (obin_eqb (Some 0))), count_none.
  2:{ intros x I. cbn [bin]. cbn [obin_eqb]. apply Nat.eqb_neq. intro E. symmetry in E.
      assert (C : 0 < count (fun e => if Rle_dec e ((x - lo) / (hi - lo)) then true else false) (cuts n)); [|lia].
      unfold cuts. destruct n as [|n']; [lia|]. cbn [seq map]. rewrite count_cons. fold (cutv (S n') 0).
      match goal with |- context [Rle_dec ?e ?v] => destruct (Rle_dec e v) as [|Q] end; [lia|]. exfalso. apply Q. assert (C := cutv_0 (S n')). apply Rle_trans with 0%R; [exact C|].
      unfold Rdiv. apply Rmult_le_pos; [apply L in I; lra|apply Rlt_le, Rinv_0_lt_compat; lra]. }
  cbn [filter Nat.ltb Nat.leb]. f_equal. apply map_ext_in. intros j J. apply in_seq in J. rewrite F. apply count_ext. intros x I. apply bin_in; [exact D|now apply L|lia].
Qed.

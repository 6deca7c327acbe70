(** Proofs for C113. *)
From Coq Require Import String Bool List Arith ZArith QArith Sorted Permutation Lia.
From Verif Require Import DiaModel DiaSpec.
Import ListNotations.
Open Scope nat_scope.

Lemma pick_chosen {V} (p : column V -> bool) P f : (forall c, In c f -> p c = true <-> P c) -> chosen name P f (pick p f).
Proof.
  unfold pick. induction f as [|c f IH]; intros H; cbn; [constructor|].
  assert (I := IH (fun c' h => H c' (or_intror h))). destruct (p c) eqn:E; cbn; constructor; auto.
  - apply H; [now left|easy].
  - intro K. apply H in K; [congruence|now left].
Qed.
Lemma chosen_ext {C} (nm : C -> string) (P Q : C -> Prop) f o : (forall c, In c f -> P c <-> Q c) -> chosen nm P f o -> chosen nm Q f o.
Proof.
  intros H K. induction K; constructor; firstorder.
Qed.
Lemma distinct_fun {A} (l : list A) n m : distinct l n -> distinct l m -> n = m.
Proof.
  intros (s & N & I & L) (t & N' & I' & L'). subst. apply Nat.le_antisymm; apply NoDup_incl_length; auto; intros x h.
  - apply I', I, h.
  - apply I, I', h.
Qed.
Section D.
Context {V : Type} (veq : forall a b : V, {a = b} + {a <> b}).
Notation n_unique := (n_unique veq).
Lemma n_unique_distinct c : distinct (vals c) (n_unique c).
Proof. exists (nodup (ceq veq) (vals c)). repeat split; [apply NoDup_nodup|apply nodup_In|apply nodup_In]. Qed.
Lemma n_unique_iff c n : n_unique c = n <-> distinct (vals c) n.
Proof. split; [intros <-; apply n_unique_distinct|intro D; exact (distinct_fun _ _ _ (n_unique_distinct c) D)]. Qed.
Lemma null_count_pos (c : column V) : 0 < null_count c <-> In None (vals c).
Proof.
  unfold null_count. destruct (filter is_null (vals c)) as [|o r] eqn:E; cbn; split; try lia.
  - intro I. assert (J : In None (filter is_null (vals c))) by (apply filter_In; easy). rewrite E in J. destruct J.
  - intros _. assert (J : In o (filter is_null (vals c))) by (rewrite E; now left). apply filter_In in J. destruct J as [J K]. destruct o; [easy|exact J].
Qed.
Lemma known_In (l : list (option V)) x : In x (known l) <-> In (Some x) l.
Proof.
  unfold known. rewrite in_flat_map. split.
  - intros (o & I & J). destruct o; [|destruct J]. destruct J as [->|[]]. exact I.
  - intro I. exists (Some x). split; [exact I|now left].
Qed.
(** Distinct values with and without the null. *)
Lemma distinct_known l n : distinct l n -> In (@None V) l -> exists m, n = S m /\ distinct (known l) m.
Proof.
  intros (s & N & I & L) H. apply I in H. apply in_split in H. destruct H as (a & b & ->).
  pose proof (NoDup_remove _ _ _ N) as [N1 N2]. exists (length (a ++ b)). rewrite app_length in L. cbn in L. rewrite app_length. split; [lia|].
  assert (NN : forall o, In o (a ++ b) -> o <> None) by (intros o h ->; now apply N2).
  exists (known (a ++ b)). assert (K : forall t : list (option V), NoDup t -> (forall o, In o t -> o <> None) -> NoDup (known t) /\ length (known t) = length t).
  { induction t as [|[x|] t IH]; intros Nt Ht; [now split; constructor| |exfalso; apply (Ht None); [now left|easy]].
    change (known (Some x :: t)) with (x :: known t). cbn [length]. inversion Nt; subst. destruct IH as [K1 K2]; [easy|intros o h; apply Ht; now right|]. split; [|now rewrite K2]. constructor; [|easy].
    now rewrite known_In. }
  destruct (K _ N1 NN) as [K1 K2]. split; [easy|]. split; [|now rewrite K2, app_length].
  intro x. rewrite !known_In. rewrite <- I. rewrite !in_app_iff. cbn. intuition congruence.
Qed.
Lemma distinct_full (l : list (option V)) n : ~ In None l -> (distinct l n <-> distinct (known l) n).
Proof.
  intro H. assert (F : forall l : list (option V), ~ In None l -> l = map Some (known l)).
  { clear. induction l as [|[x|] l IH]; cbn; intro H; [easy|f_equal; tauto|tauto]. }
  split.
  - intros (s & N & I & L). assert (Hs : ~ In None s) by (now rewrite I). exists (known s). rewrite (F s Hs) in N, L. rewrite map_length in L. split; [|split; [|easy]].
    + now apply NoDup_map_inv in N.
    + intro x. now rewrite !known_In, I.
  - intros (s & N & I & L). exists (map Some s). split; [|split; [|now rewrite map_length]].
    + apply FinFun.Injective_map_NoDup; [intros a b e; congruence|easy].
    + intro o. rewrite (F l H) at 1. rewrite !in_map_iff. split; intros (x & <- & J); exists x; (split; [easy|]); now apply I.
Qed.

Lemma null_sum (l : list (option V)) : length (filter is_null l) = length l - length (known l) /\ length (known l) <= length l.
Proof.
  induction l as [|[x|] l [A B]]; [easy| |].
  - change (known (Some x :: l)) with (x :: known l). cbn [filter is_null length]. lia.
  - change (known (None :: l)) with (known l). cbn [filter is_null length]. lia.
Qed.
Lemma null_count_nulls (c : column V) : null_count c = nulls (vals c).
Proof. exact (proj1 (null_sum (vals c))). Qed.
Lemma high_null t (f : frame V) : chosen name (fun c => (inject_Z (Z.of_nat (length (vals c))) * t <= inject_Z (Z.of_nat (nulls (vals c))))%Q) f (infer_high_null t f).
Proof. apply pick_chosen. intros c _. rewrite null_count_nulls. apply Qle_bool_iff. Qed.

Lemma k_out k (f : frame V) : (1 <= k)%Z ->
  (exists o, infer_k_distinct veq k false f = Value o /\ chosen name (fun c => distinct (vals c) (Z.to_nat k)) f o) /\
  (exists o, infer_k_distinct veq k true f = Value o /\
     chosen name (fun c => distinct (vals c) (Z.to_nat k) \/ In None (vals c) /\ distinct (known (vals c)) (Z.to_nat k)) f o).
Proof.
  intro K. unfold infer_k_distinct. destruct (Z.ltb_spec k 1); [lia|]. split; eexists; (split; [reflexivity|]); apply pick_chosen; intros c _.
  - rewrite Nat.eqb_eq. apply n_unique_iff.
  - rewrite orb_true_iff, andb_true_iff, !Nat.eqb_eq, Nat.ltb_lt, null_count_pos, !n_unique_iff.
    assert (E : In None (vals c) -> (distinct (vals c) (Z.to_nat k + 1) <-> distinct (known (vals c)) (Z.to_nat k))).
    { intro I. destruct (distinct_known _ _ (n_unique_distinct c) I) as (m & Em & D). split.
      - intro D'. pose proof (distinct_fun _ _ _ D' (n_unique_distinct c)). replace (Z.to_nat k) with m by lia. easy.
      - intro D'. pose proof (distinct_fun _ _ _ D' D). replace (Z.to_nat k + 1) with (n_unique c) by lia. apply n_unique_distinct. }
    tauto.
Qed.
Lemma k_full k b (f : frame V) : (1 <= k)%Z -> Forall (fun c => ~ In None (vals c)) f ->
  exists o, infer_k_distinct veq k b f = Value o /\ chosen name (fun c => distinct (known (vals c)) (Z.to_nat k)) f o.
Proof.
  intros K F. destruct (k_out k f K) as [(o & E & C) (o' & E' & C')]. rewrite Forall_forall in F. destruct b.
  - exists o'. split; [easy|]. revert C'. apply chosen_ext. intros c I. specialize (F c I). rewrite (distinct_full _ _ F). tauto.
  - exists o. split; [easy|]. revert C. apply chosen_ext. intros c I. specialize (F c I). now rewrite (distinct_full _ _ F).
Qed.
Lemma k_bad k b (f : frame V) : (k < 1)%Z -> infer_k_distinct veq k b f = Raise.
Proof. intro K. unfold infer_k_distinct. destruct (Z.ltb_spec k 1); [easy|lia]. Qed.
Lemma const_k b (f : frame V) : infer_k_distinct veq 1 b f = Value (infer_const veq b f).
Proof. now destruct b. Qed.
Lemma binary_k b (f : frame V) : infer_k_distinct veq 2 b f = Value (infer_binary veq b f).
Proof. now destruct b. Qed.
Lemma memb_In l x : memb l x = true <-> In x l.
Proof. unfold memb. rewrite existsb_exists. split; [intros (y & I & E); apply String.eqb_eq in E; now subst|intro I; exists x; split; [easy|apply String.eqb_refl]]. Qed.
Lemma of_type_In p (f : frame V) c : NoDup (map name f) -> In c f -> (In (name c) (of_type p f) <-> p (ty c) = true).
Proof.
  intros N I. unfold of_type. rewrite in_map_iff. split.
  - intros (d & E & J). apply filter_In in J. destruct J as [J K]. assert (d = c); [|now subst].
    clear K. induction f as [|e f IH]; [destruct I|]. cbn in N. inversion N as [|? ? N1 N2]; subst. destruct I as [->|I], J as [->|J].
    + easy.
    + destruct N1. rewrite <- E. now apply in_map.
    + destruct N1. rewrite E. now apply in_map.
    + now apply IH.
  - intro K. exists c. split; [easy|]. now apply filter_In.
Qed.
Lemma chosen_filter {C} (nm : C -> string) P (q : C -> bool) f o : chosen nm P (filter q f) o -> chosen nm (fun c => q c = true /\ P c) f o.
Proof.
  revert o. induction f as [|c f IH]; intros o H; cbn in H; [inversion H; constructor|]. destruct (q c) eqn:E.
  - inversion H; subst; constructor; auto. tauto.
  - constructor; [intros [K _]; congruence|]. now apply IH.
Qed.
Lemma qlt_iff a b : qlt a b = true <-> (a < b)%Q.
Proof.
  unfold qlt. rewrite negb_true_iff. split.
  - intro H. apply Qnot_le_lt. intro K. apply Qle_bool_iff in K. congruence.
  - intro H. apply Bool.not_true_iff_false. intro K. apply Qle_bool_iff in K. now apply (Qlt_not_le _ _ H).
Qed.
Lemma discrete t m (f : frame V) : NoDup (map name f) ->
  chosen name (fun c => ty c <> DBool /\ ty c <> DCat /\ exists d, distinct (vals c) d /\
     (d < m \/ (inject_Z (Z.of_nat d) < t * inject_Z (Z.of_nat (length (vals c))))%Q)) f (infer_discrete veq t m f).
Proof.
  intro N. unfold infer_discrete. match goal with |- context[pick ?p ?g] =>
    pose proof (pick_chosen p (fun c => exists d, distinct (vals c) d /\ (d < m \/ (inject_Z (Z.of_nat d) < t * inject_Z (Z.of_nat (length (vals c))))%Q)) g) as H end.
  eapply chosen_ext; [|apply chosen_filter; apply H].
  - intros c I. cbn beta. rewrite negb_true_iff. rewrite <- not_true_iff_false, memb_In, in_app_iff. unfold bools, cats.
    rewrite !(of_type_In _ _ _ N I). destruct (ty c); intuition congruence.
  - intros c I. rewrite orb_true_iff, Nat.ltb_lt, qlt_iff. split.
    + intro K. exists (n_unique c). split; [apply n_unique_distinct|easy].
    + intros (d & D & K). apply n_unique_iff in D. now subst.
Qed.
Lemma nodup_app {A} (a b : list A) : NoDup a -> NoDup b -> (forall x, In x a -> ~ In x b) -> NoDup (a ++ b).
Proof.
  induction a as [|x a IH]; cbn; intros Na Nb D; [easy|]. inversion Na; subst. constructor.
  - rewrite in_app_iff. intros [h|h]; [easy|exact (D x (or_introl eq_refl) h)].
  - apply IH; auto.
Qed.
(** Every column is in exactly one of the groups. *)
Lemma types (f : frame V) : NoDup (map name f) -> Permutation (simple_types f ++ other_types f) (map name f).
Proof.
  intro N. assert (D : forall p q, (forall t, p t = true -> q t = false) -> forall x, In x (of_type p f) -> ~ In x (of_type q f)).
  { intros p q H x I J. pose proof I as I0. unfold of_type in I. apply in_map_iff in I. destruct I as (c & <- & I). apply filter_In in I. destruct I as [I K].
    apply (of_type_In q f c N I) in J. rewrite (H _ K) in J. discriminate. }
  assert (ND : forall p, NoDup (of_type p f)).
  { intro p. unfold of_type. clear D. induction f as [|c g IH]; [constructor|]. cbn in *. inversion N; subst. destruct (p (ty c)); cbn; [constructor|]; auto.
    rewrite in_map_iff. intros (d & E & I). apply filter_In in I. destruct I as [I _]. match goal with h : ~ In (name c) _ |- _ => apply h end. rewrite <- E. now apply in_map. }
  assert (S1 : NoDup (simple_types f)).
  { assert (G : forall ps, ForallOrdPairs (fun p q => forall t, p t = true -> q t = false) ps -> NoDup (flat_map (fun p => of_type p f) ps)).
    { induction 1 as [|p ps H _ IH]; cbn; [constructor|]. apply nodup_app; auto. intros x I J. apply in_flat_map in J. destruct J as (q & Iq & J).
      rewrite Forall_forall in H. exact (D p q (H q Iq) x I J). }
    replace (simple_types f) with (flat_map (fun p => of_type p f) [is_numeric; (fun t => match t with DStr => true | _ => false end);
      (fun t => match t with DBool => true | _ => false end); (fun t => match t with DCat => true | _ => false end);
      (fun t => match t with DListFloat => true | _ => false end); (fun t => match t with DListInt => true | _ => false end);
      (fun t => match t with DListBool => true | _ => false end); (fun t => match t with DListStr => true | _ => false end)]).
    2:{ cbn [flat_map]. now rewrite app_nil_r. }
    apply G. repeat constructor; intros []; cbn; easy. }
  apply NoDup_Permutation; [|easy|].
  - apply nodup_app; [easy|apply NoDup_filter, N|]. intros x I J. unfold other_types in J. apply filter_In in J. destruct J as [_ J].
    apply negb_true_iff in J. apply memb_In in I. congruence.
  - intro x. rewrite in_app_iff. unfold other_types. rewrite filter_In. split.
    + intros [I|[I _]]; [|easy]. unfold simple_types, numerics, strs, bools, cats, list_floats, list_ints, list_bool, list_str, of_type in I.
      rewrite !in_app_iff, !in_map_iff in I. apply in_map_iff. repeat destruct I as [I|I]; destruct I as (c & E & I); apply filter_In in I; exists c; tauto.
    + intro I. destruct (memb (simple_types f) x) eqn:E; [left; now apply memb_In|right; easy].
Qed.
End D.

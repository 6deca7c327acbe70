(** Proofs about the KD-tree model, for any [NumOps] satisfying [NumLaws]. *)
From Coq Require Import Bool List Arith Lia Permutation Sorted.
From Verif Require Import Num KdModel KdSpec.
Import ListNotations.

Section P.
Context (N : NumOps) (laws : NumLaws N) (A : Type).
Notation T := (carrier N).
Notation leaf := (leaf N A).
Notation kdt := (kdt N A).
Notation nle := (nle N). Notation nlt := (nlt N). Notation nnan := (nnan N).
Notation nadd := (nadd N). Notation nzero := (nzero N).
Notation nmin := (nmin N). Notation nmax := (nmax N).

(** ** Order facts *)
Lemma lt_false x y : nnan x = false -> nnan y = false -> nlt x y = false -> nle y x = true.
Proof.
  intros Hx Hy H. destruct (nle y x) eqn:E; [reflexivity|].
  assert (nlt x y = true) by (apply (lt_le N laws); auto). congruence.
Qed.
Lemma lt_le_weak x y : nlt x y = true -> nle x y = true.
Proof.
  intros H. apply (lt_le N laws) in H. destruct H as (Hx & Hy & H).
  destruct (le_total N laws x y Hx Hy); congruence.
Qed.
Lemma lt_nle x y : nlt x y = true -> nle y x = false.
Proof. intros H. apply (lt_le N laws) in H. tauto. Qed.
Lemma nle_nlt x y : nle x y = true -> nlt y x = false.
Proof. intros H. destruct (nlt y x) eqn:E; [|reflexivity]. apply lt_nle in E. congruence. Qed.
Lemma le_lt_trans x y z : nle x y = true -> nlt y z = true -> nlt x z = true.
Proof.
  intros H1 H2. apply (lt_le N laws) in H2. destruct H2 as (Hy & Hz & H2).
  apply (lt_le N laws). repeat split; try assumption; [exact (le_nan_l N laws _ _ H1)|].
  destruct (nle z x) eqn:E; [|reflexivity].
  rewrite (le_trans N laws _ _ _ E H1) in H2. discriminate.
Qed.
Lemma lt_le_trans x y z : nlt x y = true -> nle y z = true -> nlt x z = true.
Proof.
  intros H1 H2. apply (lt_le N laws) in H1. destruct H1 as (Hx & Hy & H1).
  apply (lt_le N laws). repeat split; try assumption; [exact (le_nan_r N laws _ _ H2)|].
  destruct (nle z x) eqn:E; [|reflexivity].
  rewrite (le_trans N laws _ _ _ H2 E) in H1. discriminate.
Qed.
Lemma lt_nan_false x y : nnan x = true -> nlt x y = false.
Proof. intros H. destruct (nlt x y) eqn:E; [|reflexivity]. apply (lt_le N laws) in E. destruct E; congruence. Qed.
Lemma le_nan_false x y : nnan x = true -> nle x y = false.
Proof. intros H. destruct (nle x y) eqn:E; [|reflexivity]. apply (le_nan_l N laws) in E. congruence. Qed.
Lemma zero_nan : nnan nzero = false.
Proof. apply (finite_nan N laws), (zero_finite N laws). Qed.
Lemma zero_le_zero : nle nzero nzero = true.
Proof. apply (le_refl N laws), zero_nan. Qed.

Lemma nmin_spec a v : nnan a = false ->
  nnan (nmin a v) = false /\ nle (nmin a v) a = true /\ (nnan v = false -> nle (nmin a v) v = true).
Proof.
  intros Ha. unfold Num.nmin. rewrite Ha.
  destruct (nnan v) eqn:Hv.
  - repeat split; try assumption; [now apply (le_refl N laws)|discriminate].
  - destruct (nlt v a) eqn:E.
    + repeat split; try assumption; [now apply lt_le_weak|intros _; now apply (le_refl N laws)].
    + repeat split; try assumption; [now apply (le_refl N laws)|intros _; now apply lt_false].
Qed.
Lemma nmax_spec a v : nnan a = false ->
  nnan (nmax a v) = false /\ nle a (nmax a v) = true /\ (nnan v = false -> nle v (nmax a v) = true).
Proof.
  intros Ha. unfold Num.nmax. rewrite Ha.
  destruct (nnan v) eqn:Hv.
  - repeat split; try assumption; [now apply (le_refl N laws)|discriminate].
  - destruct (nlt a v) eqn:E.
    + repeat split; try assumption; [now apply lt_le_weak|intros _; now apply (le_refl N laws)].
    + repeat split; try assumption; [now apply (le_refl N laws)|intros _; now apply lt_false].
Qed.
Lemma nmax_lub a b c : nle a c = true -> nle b c = true -> nle (nmax a b) c = true.
Proof.
  intros H1 H2. unfold Num.nmax.
  rewrite (le_nan_l N laws _ _ H1), (le_nan_l N laws _ _ H2). destruct (nlt a b); assumption.
Qed.

(** ** Vector updates *)
Lemma set_nth_some {X} (v : list X) i x : i < length v ->
  exists w, set_nth v i x = Some w /\ length w = length v /\
    (forall j, nth_error w j = if j =? i then Some x else nth_error v j).
Proof.
  revert i. induction v as [|y v IH]; simpl; intros i Hi; [lia|].
  destruct i as [|i].
  - exists (x :: v). repeat split. intros [|j]; reflexivity.
  - destruct (IH i) as (w & E & L & H); [lia|]. rewrite E.
    exists (y :: w). repeat split; [simpl; lia|].
    intros [|j]; [reflexivity|]. simpl. apply H.
Qed.

Lemma nth_error_ex {X} (l : list X) i : i < length l -> exists x, nth_error l i = Some x.
Proof.
  intros H. destruct (nth_error l i) eqn:E; [eauto|]. apply nth_error_None in E. lia.
Qed.

Lemma update_bound_at_spec dim b row i lo hi v :
  length b = 2 * dim -> i < dim -> nth_error row i = Some v ->
  nth_error b i = Some lo -> nth_error b (i + dim) = Some hi ->
  exists b', update_bound_at N dim b row i = Some b' /\ length b' = 2 * dim /\
    nth_error b' i = Some (nmin lo v) /\ nth_error b' (i + dim) = Some (nmax hi v) /\
    (forall j, j <> i -> j <> i + dim -> nth_error b' j = nth_error b j).
Proof.
  intros L Hi Hv Hlo Hhi. unfold update_bound_at. rewrite Hv, Hlo.
  destruct (set_nth_some b i (nmin lo v)) as (b1 & E1 & L1 & H1); [lia|]. rewrite E1.
  assert (E2 : nth_error b1 (i + dim) = Some hi).
  { rewrite H1. destruct (Nat.eqb_spec (i + dim) i); [lia|exact Hhi]. }
  rewrite E2.
  destruct (set_nth_some b1 (i + dim) (nmax hi v)) as (b2 & E3 & L3 & H3); [lia|].
  exists b2. split; [exact E3|]. split; [lia|].
  split; [|split].
  - rewrite H3. destruct (Nat.eqb_spec i (i + dim)); [lia|]. rewrite H1, Nat.eqb_refl. reflexivity.
  - rewrite H3, Nat.eqb_refl. reflexivity.
  - intros j J1 J2. rewrite H3. destruct (Nat.eqb_spec j (i + dim)); [lia|].
    rewrite H1. destruct (Nat.eqb_spec j i); [lia|reflexivity].
Qed.

Lemma update_bounds_spec dim b row :
  length b = 2 * dim -> length row = dim ->
  exists b', update_bounds N dim b row = Some b' /\ length b' = 2 * dim /\
    (forall i v lo hi, nth_error row i = Some v -> nth_error b i = Some lo ->
        nth_error b (i + dim) = Some hi ->
        nth_error b' i = Some (nmin lo v) /\ nth_error b' (i + dim) = Some (nmax hi v)).
Proof.
  intros L Lr.
  assert (G : forall n, n <= dim -> exists b',
    fold_left (fun ob i => match ob with None => None | Some b => update_bound_at N dim b row i end)
            (seq 0 n) (Some b) = Some b' /\ length b' = 2 * dim /\
    (forall i v lo hi, i < n -> nth_error row i = Some v -> nth_error b i = Some lo ->
        nth_error b (i + dim) = Some hi ->
        nth_error b' i = Some (nmin lo v) /\ nth_error b' (i + dim) = Some (nmax hi v)) /\
    (forall i, n <= i < dim -> nth_error b' i = nth_error b i /\
                               nth_error b' (i + dim) = nth_error b (i + dim))).
  { induction n as [|n IH]; intros Hn.
    - exists b. simpl. repeat split; auto; lia.
    - destruct IH as (b1 & E & L1 & H1 & H2); [lia|].
      rewrite seq_S, fold_left_app, E. cbn [fold_left Nat.add].
      destruct (nth_error_ex row n) as (v & Hv); [lia|].
      destruct (nth_error_ex b1 n) as (lo & Hlo); [lia|].
      destruct (nth_error_ex b1 (n + dim)) as (hi & Hhi); [lia|].
      destruct (update_bound_at_spec dim b1 row n lo hi v) as (b2 & E2 & L2 & A1 & A2 & A3); try assumption.
      destruct (H2 n) as (C1 & C2); [lia|].
      exists b2. split; [exact E2|]. split; [exact L2|]. split.
      + intros i v' lo' hi' Hi Hv' Hlo' Hhi'.
        destruct (Nat.eq_dec i n) as [->|Hne].
        * rewrite C1 in Hlo. rewrite C2 in Hhi.
          replace v' with v by congruence. replace lo' with lo by congruence. replace hi' with hi by congruence.
          split; assumption.
        * rewrite !A3 by lia. apply (H1 i v' lo' hi'); try assumption. lia.
      + intros i Hi. rewrite !A3 by lia. apply H2. lia. }
  destruct (G dim) as (b' & E & L' & H & _); [lia|].
  exists b'. split; [exact E|]. split; [exact L'|].
  intros i v lo hi Hv. apply H; try assumption.
  assert (nth_error row i <> None) by congruence. apply nth_error_Some in H0. lia.
Qed.

(** ** Bounds invariant *)
Definition bwf (dim : nat) (b : list T) : Prop :=
  length b = 2 * dim /\ Forall (fun x => nnan x = false) b.

(** every non-NaN coordinate of [p] lies between the bounds *)
Definition covers (dim : nat) (b p : list T) : Prop :=
  forall i x, nth_error p i = Some x -> nnan x = false ->
    exists lo hi, nth_error b i = Some lo /\ nth_error b (i + dim) = Some hi /\
                  nle lo x = true /\ nle x hi = true.

Lemma bwf_nth dim b i x : bwf dim b -> nth_error b i = Some x -> nnan x = false.
Proof.
  intros [_ H] E. rewrite Forall_forall in H. apply H. eapply nth_error_In, E.
Qed.

Lemma empty_bounds_wf dim : bwf dim (empty_bounds N dim).
Proof.
  unfold empty_bounds. split.
  - rewrite app_length, !repeat_length. lia.
  - apply Forall_app. split; apply Forall_forall; intros x Hx; apply repeat_spec in Hx; subst x;
      apply (finite_nan N laws); [apply (max_finite N laws)|apply (min_finite N laws)].
Qed.

Lemma update_bounds_inv dim b row : bwf dim b -> length row = dim ->
  exists b', update_bounds N dim b row = Some b' /\ bwf dim b' /\ covers dim b' row /\
    (forall p, length p = dim -> covers dim b p -> covers dim b' p).
Proof.
  intros W Lr. destruct (update_bounds_spec dim b row (proj1 W) Lr) as (b' & E & L' & H).
  exists b'. split; [exact E|].
  assert (K : forall i, i < dim -> exists v lo hi, nth_error row i = Some v /\ nth_error b i = Some lo /\
     nth_error b (i + dim) = Some hi).
  { intros i Hi. destruct W as [Lb _].
    destruct (nth_error_ex row i) as (v & Hv); [lia|].
    destruct (nth_error_ex b i) as (lo & Hlo); [lia|].
    destruct (nth_error_ex b (i + dim)) as (hi & Hhi); [lia|].
    exists v, lo, hi. auto. }
  split; [|split].
  - split; [exact L'|]. apply Forall_forall. intros x Hx.
    apply In_nth_error in Hx. destruct Hx as (j & Hj).
    assert (J : j < 2 * dim). { rewrite <- L'. apply nth_error_Some. congruence. }
    destruct (Nat.lt_ge_cases j dim) as [Hlt|Hge].
    + destruct (K j Hlt) as (v & lo & hi & Hv & Hlo & Hhi).
      destruct (H j v lo hi Hv Hlo Hhi) as (E1 & _). rewrite E1 in Hj. injection Hj as <-.
      apply nmin_spec. eapply bwf_nth; eassumption.
    + destruct (K (j - dim)) as (v & lo & hi & Hv & Hlo & Hhi); [lia|].
      destruct (H _ v lo hi Hv Hlo Hhi) as (_ & E1).
      replace (j - dim + dim) with j in E1 by lia. rewrite E1 in Hj. injection Hj as <-.
      apply nmax_spec. replace (j - dim + dim) with j in Hhi by lia. eapply bwf_nth; eassumption.
  - intros i x Hx Nx.
    assert (Hi : i < dim). { rewrite <- Lr. apply nth_error_Some. congruence. }
    destruct (K i Hi) as (v & lo & hi & Hv & Hlo & Hhi).
    destruct (H i v lo hi Hv Hlo Hhi) as (E1 & E2).
    replace x with v by congruence. assert (Nv : nnan v = false) by congruence.
    destruct (nmin_spec lo v (bwf_nth _ _ _ _ W Hlo)) as (_ & _ & M1).
    destruct (nmax_spec hi v (bwf_nth _ _ _ _ W Hhi)) as (_ & _ & M2).
    exists (nmin lo v), (nmax hi v). auto.
  - intros p Lp C i x Hx Nx.
    assert (Hi : i < dim). { rewrite <- Lp. apply nth_error_Some. congruence. }
    destruct (C i x Hx Nx) as (lo & hi & Hlo & Hhi & G1 & G2).
    destruct (K i Hi) as (v & _ & _ & Hv & _ & _).
    destruct (H i v lo hi Hv Hlo Hhi) as (E1 & E2).
    destruct (nmin_spec lo v (bwf_nth _ _ _ _ W Hlo)) as (_ & M1 & _).
    destruct (nmax_spec hi v (bwf_nth _ _ _ _ W Hhi)) as (_ & M2 & _).
    exists (nmin lo v), (nmax hi v). repeat split; try assumption;
      eapply (le_trans N laws); eassumption.
Qed.

Lemma find_bounds_inv dim (data : list leaf) :
  Forall (fun l => length (row_vec l) = dim) data ->
  exists b, find_bounds N A dim data = Some b /\ bwf dim b /\
            Forall (fun l => covers dim b (row_vec l)) data.
Proof.
  intros HL. unfold find_bounds.
  assert (G : forall ls b, bwf dim b -> Forall (fun l : leaf => length (row_vec l) = dim) ls ->
    exists b', fold_left (fun ob l => match ob with None => None | Some b => update_bounds N dim b (row_vec l) end)
            ls (Some b) = Some b' /\ bwf dim b' /\ Forall (fun l => covers dim b' (row_vec l)) ls /\
       (forall p, length p = dim -> covers dim b p -> covers dim b' p)).
  { induction ls as [|l ls IH]; intros b W F.
    - exists b. simpl. auto.
    - apply Forall_cons_iff in F. destruct F as [F1 F2].
      destruct (update_bounds_inv dim b (row_vec l) W F1) as (b1 & E1 & W1 & C1 & M1).
      simpl. rewrite E1. destruct (IH b1 W1 F2) as (b2 & E2 & W2 & C2 & M2).
      exists b2. split; [exact E2|]. split; [exact W2|]. split.
      + constructor; [apply M2; assumption|assumption].
      + intros p Lp Cp. apply M2; [exact Lp|]. apply M1; assumption. }
  destruct (G data (empty_bounds N dim) (empty_bounds_wf dim) HL) as (b & E & W & C & _).
  exists b. auto.
Qed.

(** ** Trees *)
Fixpoint elems (t : kdt) : list leaf :=
  match t with KLeaf _ d => d | KNode _ _ _ l r => elems l ++ elems r end.

Definition cov_all (dim : nat) (b : list T) (ls : list leaf) : Prop :=
  Forall (fun l => length (row_vec l) = dim /\ covers dim b (row_vec l)) ls.

Fixpoint twf (dim : nat) (t : kdt) : Prop :=
  bwf dim (bounds_of N A t) /\ cov_all dim (bounds_of N A t) (elems t) /\
  match t with
  | KLeaf _ _ => True
  | KNode ax _ _ l r => ax < dim /\ twf dim l /\ twf dim r
  end.

Lemma twf_bwf dim t : twf dim t -> bwf dim (bounds_of N A t).
Proof. destruct t; simpl; tauto. Qed.
Lemma twf_cov dim t : twf dim t -> cov_all dim (bounds_of N A t) (elems t).
Proof. destruct t; simpl; tauto. Qed.

Record lib_ok (lib : SplitLib N A) : Prop := {
  sort_key_perm : forall p l, Permutation (sort_key N A lib p l) l;
  sort_cmp_perm : forall p l, Permutation (sort_cmp N A lib p l) l;
  part_point_le : forall p l, part_point N A lib p l <= length l;
}.

Definition row_ok (sm : SplitMethod) (dim : nat) (l : leaf) : Prop :=
  length (row_vec l) = dim /\
  match sm with MEDIAN => Forall (fun x => nnan x = false) (row_vec l) | MIDPOINT => True end.

Lemma Forall_perm {X} (P : X -> Prop) l l' : Permutation l l' -> Forall P l -> Forall P l'.
Proof. intros H. rewrite !Forall_forall. intros F x Hx. apply F. eapply Permutation_in; [symmetry; exact H|exact Hx]. Qed.

Lemma split_leaf_ok lib sm dim axis b data :
  lib_ok lib -> bwf dim b -> axis < dim -> data <> [] ->
  Forall (row_ok sm dim) data ->
  exists sv idx sorted, split_leaf N A lib sm dim axis b data = Some (sv, idx, sorted) /\
    Permutation sorted data /\ idx <= length sorted.
Proof.
  intros LO W Hax Hne F.
  assert (AH : all_have N A axis data = true).
  { unfold all_have. apply forallb_forall. intros l Hl. rewrite Forall_forall in F.
    destruct (F l Hl) as [L _]. apply Nat.ltb_lt. lia. }
  destruct sm; simpl.
  - destruct (nth_error_ex b axis) as (lo & ->); [destruct W; lia|].
    destruct (nth_error_ex b (axis + dim)) as (hi & ->); [destruct W; lia|].
    rewrite AH. do 3 eexists. split; [reflexivity|]. split.
    + apply (sort_key_perm lib LO).
    + apply (part_point_le lib LO).
  - rewrite AH.
    assert (NN : existsb (fun l => nnan (val_or N A axis l)) data = false).
    { apply not_true_iff_false. intros H. apply existsb_exists in H. destruct H as (l & Hl & Hn).
      rewrite Forall_forall in F. destruct (F l Hl) as [L Fn]. simpl in Fn.
      rewrite Forall_forall in Fn. unfold val_or in Hn. rewrite Fn in Hn; [discriminate|].
      apply nth_In. lia. }
    rewrite NN. cbn [negb andb].
    set (srt := sort_cmp N A lib _ data).
    assert (P : Permutation srt data) by apply (sort_cmp_perm lib LO).
    assert (Hlen : 0 < length srt).
    { rewrite (Permutation_length P). destruct data; [congruence|simpl; lia]. }
    destruct (nth_error_ex srt (Nat.div2 (length srt))) as (m & ->).
    { apply Nat.lt_div2. exact Hlen. }
    do 3 eexists. split; [reflexivity|]. split; [exact P|].
    pose proof (Nat.lt_div2 _ Hlen). lia.
Qed.

Lemma cov_all_perm dim b l l' : Permutation l l' -> cov_all dim b l -> cov_all dim b l'.
Proof. apply Forall_perm. Qed.

Lemma add_unchecked_ok lib sm dim cap :
  lib_ok lib -> 0 < dim ->
  forall t l depth, twf dim t -> Forall (row_ok sm dim) (elems t) -> row_ok sm dim l ->
  exists t', add_unchecked N A lib sm dim cap t l depth = Some t' /\ twf dim t' /\
             Permutation (elems t') (l :: elems t).
Proof.
  intros LO Hdim. induction t as [b data|ax sv b lt IHl rt IHr]; intros l depth W F R.
  - destruct W as (Wb & Wc & _). destruct R as [Lr Rn]. simpl in Wb, Wc, F.
    simpl. destruct (update_bounds_inv dim b (row_vec l) Wb Lr) as (b' & E & W' & C' & M').
    rewrite E.
    assert (CA : cov_all dim b' (data ++ [l])).
    { apply Forall_app. split.
      - eapply Forall_impl; [|exact Wc]. intros x [Lx Cx]. auto.
      - constructor; [auto|constructor]. }
    assert (PM : Permutation (data ++ [l]) (l :: data)).
    { symmetry. apply Permutation_cons_append. }
    destruct (Nat.ltb_spec cap (length (data ++ [l]))) as [Hc|Hc].
    + destruct (Nat.eqb_spec dim 0); [lia|].
      assert (Hax : depth mod dim < dim) by (apply Nat.mod_upper_bound; lia).
      destruct (split_leaf_ok lib sm dim (depth mod dim) b' (data ++ [l]) LO W' Hax)
        as (sv & idx & sorted & Es & Ps & Hidx).
      { intros H. apply app_eq_nil in H. destruct H; discriminate. }
      { apply Forall_app. split; [exact F|]. constructor; [split; assumption|constructor]. }
      rewrite Es.
      assert (CS : cov_all dim b' sorted).
      { eapply cov_all_perm; [symmetry; exact Ps|exact CA]. }
      assert (EQ : firstn idx sorted ++ skipn idx sorted = sorted) by apply firstn_skipn.
      destruct (firstn idx sorted) as [|x lft] eqn:Elft.
      * simpl in EQ. eexists. split; [reflexivity|]. simpl. rewrite EQ.
        repeat split; try assumption; try (destruct W'; assumption).
        rewrite Ps. exact PM.
      * rewrite <- Elft in *.
        assert (CL : cov_all dim b' (firstn idx sorted) /\ cov_all dim b' (skipn idx sorted)).
        { rewrite <- EQ in CS. apply Forall_app in CS. exact CS. }
        destruct CL as [CL CR].
        assert (LL : forall ls, cov_all dim b' ls -> Forall (fun l : leaf => length (row_vec l) = dim) ls).
        { intros ls. apply Forall_impl. tauto. }
        destruct (find_bounds_inv dim (firstn idx sorted) (LL _ CL)) as (bl & El & Wl & Cl).
        destruct (find_bounds_inv dim (skipn idx sorted) (LL _ CR)) as (br & Er & Wr & Cr).
        rewrite El, Er. eexists. split; [reflexivity|].
        assert (MK : forall bb ls, cov_all dim b' ls -> Forall (fun l : leaf => covers dim bb (row_vec l)) ls ->
                     cov_all dim bb ls).
        { intros bb ls H1 H2. unfold cov_all in *. rewrite Forall_forall in *. intros y Hy.
          split; [apply H1, Hy|apply H2, Hy]. }
        simpl. rewrite EQ. repeat split; try assumption; try (destruct W'; assumption);
          try (destruct Wl; assumption); try (destruct Wr; assumption); try (apply MK; assumption).
        rewrite Ps. exact PM.
    + eexists. split; [reflexivity|]. simpl. repeat split; try assumption; try (destruct W'; assumption).
  - destruct W as (Wb & Wc & Hax & Wl & Wr). destruct R as [Lr Rn]. simpl in Wb, Wc, F.
    simpl. destruct (update_bounds_inv dim b (row_vec l) Wb Lr) as (b' & E & W' & C' & M').
    rewrite E. unfold value_at.
    destruct (nth_error_ex (row_vec l) ax) as (v & ->); [lia|].
    apply Forall_app in F. destruct F as [Fl Fr].
    assert (CA : cov_all dim b' (l :: elems lt ++ elems rt)).
    { constructor; [auto|]. eapply Forall_impl; [|exact Wc]. intros x [Lx Cx]. auto. }
    destruct (nlt v sv).
    + destruct (IHl l (S depth) Wl Fl (conj Lr Rn)) as (t' & Et & Wt & Pt).
      rewrite Et. eexists. split; [reflexivity|].
      assert (PP : Permutation (elems t' ++ elems rt) (l :: elems lt ++ elems rt)).
      { rewrite Pt. reflexivity. }
      simpl. repeat split; try assumption; try (destruct W'; assumption).
      eapply cov_all_perm; [symmetry; exact PP|exact CA].
    + destruct (IHr l (S depth) Wr Fr (conj Lr Rn)) as (t' & Et & Wt & Pt).
      rewrite Et. eexists. split; [reflexivity|].
      assert (PP : Permutation (elems lt ++ elems t') (l :: elems lt ++ elems rt)).
      { rewrite Pt. symmetry. apply Permutation_middle. }
      simpl. repeat split; try assumption; try (destruct W'; assumption).
      eapply cov_all_perm; [symmetry; exact PP|exact CA].
Qed.

Lemma add_all_ok lib sm dim cap :
  lib_ok lib -> 0 < dim ->
  forall ls t, twf dim t -> Forall (row_ok sm dim) (elems t) -> Forall (row_ok sm dim) ls ->
  exists t', add_all N A lib sm dim cap t ls = Some t' /\ twf dim t' /\
             Permutation (elems t') (elems t ++ ls).
Proof.
  intros LO Hdim. unfold add_all. induction ls as [|l ls IH]; intros t W F R.
  - exists t. simpl. rewrite app_nil_r. auto.
  - apply Forall_cons_iff in R. destruct R as [R1 R2]. cbn [fold_left].
    destruct (add_unchecked_ok lib sm dim cap LO Hdim t l 0 W F R1) as (t1 & E1 & W1 & P1).
    rewrite E1.
    destruct (IH t1 W1) as (t2 & E2 & W2 & P2); [|exact R2|].
    { eapply Forall_perm; [symmetry; exact P1|]. constructor; assumption. }
    exists t2. split; [exact E2|]. split; [exact W2|].
    rewrite P2, P1. cbn [app]. apply Permutation_middle.
Qed.

Lemma new_empty_wf dim : twf dim (new_empty N A dim).
Proof.
  simpl. split; [apply empty_bounds_wf|]. split; [constructor|exact I].
Qed.

(** ** Counting *)
Fixpoint sizes (s : list kdt) : nat := match s with [] => 0 | t :: s' => size N A t + sizes s' end.
Lemma size_pos t : 0 < size N A t. Proof. destruct t; simpl; lia. Qed.
Lemma count_loop_ok : forall fuel s acc, sizes s <= fuel ->
  count_loop N A fuel s acc = Some (acc + length (flat_map elems s)).
Proof.
  induction fuel as [|fuel IH]; intros s acc H.
  - destruct s as [|t s]; [simpl; f_equal; lia|]. simpl in H. pose proof (size_pos t). lia.
  - destruct s as [|t s]; [simpl; f_equal; lia|]. simpl in H.
    destruct t as [b d|ax sv b l r]; simpl in H |- *.
    + rewrite IH by lia. f_equal. rewrite app_length. lia.
    + rewrite IH by (simpl; lia). f_equal. simpl. rewrite !app_length. lia.
Qed.
Lemma count_all_ok t : count_all N A t = Some (length (elems t)).
Proof.
  unfold count_all. rewrite count_loop_ok by (simpl; lia). simpl. rewrite app_nil_r. reflexivity.
Qed.

(** ** Distances *)
Definition to_DIST (m : metric) : DIST N :=
  match m with ML1 => L1 | ML2 => L2 | MSQL2 => SQL2 | MLINF => LINF end.

Lemma zip_fold_combine f : forall a b acc,
  zip_fold N f acc a b = fold_left (fun s xy => f s (fst xy) (snd xy)) (combine a b) acc.
Proof.
  induction a as [|x a IH]; intros [|y b] acc; simpl; try reflexivity. apply IH.
Qed.
Lemma dist_spec m p q : dist N (to_DIST m) p q = spec_dist N m p q.
Proof.
  destruct m; simpl; unfold sum_of, sqd; rewrite zip_fold_combine; reflexivity.
Qed.

(** ** Lower bound given by a box *)
(** The accumulation step of each metric. *)
Definition acc_f (m : metric) : T -> T -> T -> T :=
  match m with
  | ML1 => fun acc x y => nadd acc (nabs N (nsub N x y))
  | ML2 | MSQL2 => fun acc x y => nadd acc (sqd N x y)
  | MLINF => fun acc x y => nmax acc (nabs N (nsub N x y))
  end.

Lemma edge_nonneg q e : nfinite N q = true -> nnan e = false ->
  nle nzero (nabs N (nsub N q e)) = true /\ nle nzero (sqd N q e) = true.
Proof.
  intros Fq Ne. pose proof (finite_nan N laws q Fq) as Nq. unfold sqd.
  destruct (le_total N laws e q Ne Nq) as [H|H].
  - pose proof (le_refl N laws e Ne). split.
    + apply (abs_nonneg N laws). eapply (le_nan_l N laws). now apply (absdiff_hi N laws e q e).
    + apply (sq_nonneg N laws). eapply (le_nan_l N laws). now apply (sqdiff_hi N laws e q e).
  - pose proof (le_refl N laws e Ne). split.
    + apply (abs_nonneg N laws). eapply (le_nan_l N laws). now apply (absdiff_lo N laws e q e).
    + apply (sq_nonneg N laws). eapply (le_nan_l N laws). now apply (sqdiff_lo N laws e q e).
Qed.

Lemma acc_nonneg m acc q e : nfinite N q = true -> nnan e = false -> nle nzero acc = true ->
  nle nzero (acc_f m acc q e) = true.
Proof.
  intros Fq Ne Z. destruct (edge_nonneg q e Fq Ne) as [Ha Hs].
  assert (Hadd : forall t, nle nzero t = true -> nle nzero (nadd acc t) = true).
  { intros t Zt. eapply (le_trans N laws); [apply (add_zero N laws nzero), zero_le_zero|].
    apply (add_mono N laws); auto using zero_le_zero. }
  destruct m; simpl; auto.
  destruct (nmax_spec acc (nabs N (nsub N q e)) (le_nan_r N laws _ _ Z)) as (_ & M1 & _).
  exact (le_trans N laws _ _ _ Z M1).
Qed.

Lemma acc_keep m acc acc' p q : nfinite N q = true -> nnan p = false ->
  nle nzero acc = true -> nle acc acc' = true -> nle acc (acc_f m acc' p q) = true.
Proof.
  intros Fq Np Z L.
  assert (Hadd : forall t, nle nzero t = true -> nle acc (nadd acc' t) = true).
  { intros t Zt. eapply (le_trans N laws); [apply (add_zero N laws), Z|].
    apply (add_mono N laws); auto using zero_le_zero. }
  destruct m; simpl.
  - apply Hadd. now apply (absdiff_nonneg N laws).
  - apply Hadd. now apply (sqdiff_nonneg N laws).
  - apply Hadd. now apply (sqdiff_nonneg N laws).
  - destruct (nmax_spec acc' (nabs N (nsub N p q)) (le_nan_r N laws _ _ L)) as (_ & M1 & _).
    exact (le_trans N laws _ _ _ L M1).
Qed.

Lemma acc_edge m acc acc' p q e : nfinite N q = true -> nnan p = false -> nnan e = false ->
  nle nzero acc = true -> nle acc acc' = true ->
  nle (nabs N (nsub N q e)) (nabs N (nsub N p q)) = true ->
  nle (sqd N q e) (sqd N p q) = true ->
  nle (acc_f m acc q e) (acc_f m acc' p q) = true.
Proof.
  intros Fq Np Ne Z L Ha Hs. destruct (edge_nonneg q e Fq Ne) as [Za Zs].
  destruct m; simpl; try (now apply (add_mono N laws)).
  destruct (nmax_spec acc' (nabs N (nsub N p q)) (le_nan_r N laws _ _ L)) as (_ & M1 & M2).
  apply nmax_lub; [exact (le_trans N laws _ _ _ L M1)|].
  exact (le_trans N laws _ _ _ Ha (M2 (le_nan_r N laws _ _ Ha))).
Qed.

Definition box_step (m : metric) (acc : T) (s : T * side N) : T :=
  match snd s with SInside _ => acc | SOut _ e => acc_f m acc (fst s) e end.

Lemma sides_some dim b : length b = 2 * dim -> forall q i, i + length q <= dim ->
  exists ss, sides N b dim i q = Some ss.
Proof.
  intros L. induction q as [|x q IH]; intros i Hi; simpl in *; [eauto|].
  destruct (nth_error_ex b i) as (lo & ->); [lia|].
  destruct (nth_error_ex b (i + dim)) as (hi & ->); [lia|].
  destruct (IH (S i)) as (ss & ->); [lia|]. eauto.
Qed.

Lemma box_nonneg m dim b : bwf dim b -> forall q i ss acc, Forall (fun x => nfinite N x = true) q ->
  sides N b dim i q = Some ss -> nle nzero acc = true ->
  nle nzero (fold_left (box_step m) ss acc) = true.
Proof.
  intros W. induction q as [|x q IH]; intros i ss acc F E Z; simpl in E.
  - injection E as <-. exact Z.
  - apply Forall_cons_iff in F. destruct F as [Fx F].
    destruct (nth_error b i) as [lo|] eqn:Elo; [|discriminate].
    destruct (nth_error b (i + dim)) as [hi|] eqn:Ehi; [|discriminate].
    destruct (sides N b dim (S i) q) as [ss'|] eqn:Es; [|discriminate].
    injection E as <-. cbn [fold_left]. apply (IH (S i) ss' _ F Es).
    unfold box_step, side_of. cbn [fst snd].
    destruct (nlt hi x); [apply acc_nonneg; eauto using bwf_nth|].
    destruct (nlt x lo); [apply acc_nonneg; eauto using bwf_nth|exact Z].
Qed.

Lemma box_lower m dim b : bwf dim b -> forall q p i ss acc acc',
  Forall (fun x => nfinite N x = true) q -> Forall (fun x => nnan x = false) p ->
  length p = length q ->
  (forall j x, nth_error p j = Some x -> exists lo hi, nth_error b (i + j) = Some lo /\
      nth_error b (i + j + dim) = Some hi /\ nle lo x = true /\ nle x hi = true) ->
  sides N b dim i q = Some ss -> nle nzero acc = true -> nle acc acc' = true ->
  nle (fold_left (box_step m) ss acc) (zip_fold N (acc_f m) acc' p q) = true.
Proof.
  intros W. induction q as [|x q IH]; intros p i ss acc acc' F Fp Lp C E Z L; simpl in E.
  - injection E as <-. destruct p; [exact L|discriminate].
  - destruct p as [|y p]; [discriminate|].
    apply Forall_cons_iff in F. destruct F as [Fx F].
    apply Forall_cons_iff in Fp. destruct Fp as [Ny Fp].
    destruct (C 0 y eq_refl) as (lo & hi & Elo & Ehi & H1 & H2).
    rewrite Nat.add_0_r in Elo, Ehi. rewrite Elo, Ehi in E.
    destruct (sides N b dim (S i) q) as [ss'|] eqn:Es; [|discriminate].
    injection E as <-. cbn [fold_left zip_fold].
    assert (C' : forall j x, nth_error p j = Some x -> exists lo hi, nth_error b (S i + j) = Some lo /\
      nth_error b (S i + j + dim) = Some hi /\ nle lo x = true /\ nle x hi = true).
    { intros j z Hz. destruct (C (S j) z Hz) as (lo' & hi' & G). exists lo', hi'.
      replace (S i + j) with (i + S j) by lia. exact G. }
    simpl in Lp. injection Lp as Lp.
    apply (IH p (S i) ss'); try assumption; unfold box_step, side_of; cbn [fst snd].
    + destruct (nlt hi x); [apply acc_nonneg; eauto using bwf_nth|].
      destruct (nlt x lo); [apply acc_nonneg; eauto using bwf_nth|exact Z].
    + destruct (nlt hi x) eqn:E1.
      * apply lt_le_weak in E1. apply acc_edge; try assumption; eauto using bwf_nth.
        -- now apply (absdiff_hi N laws).
        -- now apply (sqdiff_hi N laws).
      * destruct (nlt x lo) eqn:E2.
        -- apply lt_le_weak in E2. apply acc_edge; try assumption; eauto using bwf_nth.
           ++ now apply (absdiff_lo N laws).
           ++ now apply (sqdiff_lo N laws).
        -- now apply acc_keep.
Qed.

Lemma zip_fold_nan_acc m : m <> MLINF -> forall p q acc, nnan acc = true ->
  nnan (zip_fold N (acc_f m) acc p q) = true.
Proof.
  intros Hm. induction p as [|x p IH]; intros [|y q] acc H; simpl; try assumption.
  apply IH. assert (G : forall t, nnan (nadd acc t) = true).
  { intros t. destruct (nnan (nadd acc t)) eqn:E; [reflexivity|]. apply (add_nan N laws) in E. destruct E; congruence. }
  destruct m; simpl; solve [auto | congruence].
Qed.

Lemma zip_fold_nan m : m <> MLINF -> forall p q acc, length p = length q ->
  Exists (fun x => nnan x = true) p -> nnan (zip_fold N (acc_f m) acc p q) = true.
Proof.
  intros Hm. induction p as [|x p IH]; intros [|y q] acc L H; simpl in *; try discriminate; inversion H; subst.
  - apply zip_fold_nan_acc; [exact Hm|].
    assert (A1 : nnan (nabs N (nsub N x y)) = true).
    { destruct (nnan (nabs N (nsub N x y))) eqn:E; [reflexivity|]. apply (absdiff_nan N laws) in E. destruct E; congruence. }
    assert (A2 : nnan (sqd N x y) = true).
    { unfold sqd. destruct (nnan (nmul N (nsub N x y) (nsub N x y))) eqn:E; [reflexivity|].
      apply (sqdiff_nan N laws) in E. destruct E; congruence. }
    assert (G : forall t, nnan t = true -> nnan (nadd acc t) = true).
    { intros t Ht. destruct (nnan (nadd acc t)) eqn:E; [reflexivity|]. apply (add_nan N laws) in E. destruct E; congruence. }
    destruct m; simpl; solve [auto | congruence].
  - apply IH; [lia|assumption].
Qed.

Definition post (m : metric) (x : T) : T := match m with ML2 => nsqrt N x | _ => x end.
Lemma dist_acc m p q : dist N (to_DIST m) p q = post m (zip_fold N (acc_f m) nzero p q).
Proof. destruct m; reflexivity. Qed.
Lemma box_acc m dim b q ss : sides N b dim 0 q = Some ss ->
  closest_dist_to_box N b q dim (to_DIST m) = Some (post m (fold_left (box_step m) ss nzero)).
Proof. intros E. unfold closest_dist_to_box. rewrite E. destruct m; reflexivity. Qed.

(** A row the pruning argument applies to: right length, and no NaN when the metric is L-infinity
    (for the other metrics a NaN makes the distance NaN, and such a row is never returned). *)
Definition good (m : metric) (dim : nat) (l : leaf) : Prop :=
  length (row_vec l) = dim /\ (m = MLINF -> Forall (fun x => nnan x = false) (row_vec l)).

Definition D (m : metric) (q : list T) (l : leaf) : T := dist N (to_DIST m) (row_vec l) q.

Definition lb (m : metric) (q : list T) (x : T) (l : leaf) : Prop :=
  nnan (D m q l) = true \/ nle x (D m q l) = true.

Lemma metric_linf_dec (m : metric) : {m = MLINF} + {m <> MLINF}.
Proof. decide equality. Qed.

Lemma box_ok m dim b q : bwf dim b -> length q = dim -> Forall (fun x => nfinite N x = true) q ->
  exists db, closest_dist_to_box N b q dim (to_DIST m) = Some db /\ nle nzero db = true /\
    (forall l, good m dim l -> covers dim b (row_vec l) -> lb m q db l).
Proof.
  intros W Lq Fq. destruct (sides_some dim b (proj1 W) q 0) as (ss & E); [lia|].
  exists (post m (fold_left (box_step m) ss nzero)). split; [now apply box_acc|].
  pose proof (box_nonneg m dim b W q 0 ss nzero Fq E zero_le_zero) as Z.
  split.
  - destruct m; simpl; try exact Z. now apply (sqrt_mono N laws _ _ Z (le_refl N laws _ (le_nan_r N laws _ _ Z))).
  - intros l [Ll Gl] C. unfold lb, D. rewrite dist_acc.
    assert (B : Forall (fun x => nnan x = false) (row_vec l) ->
              nle (fold_left (box_step m) ss nzero) (zip_fold N (acc_f m) nzero (row_vec l) q) = true).
    { intros NN. apply (box_lower m dim b W q (row_vec l) 0 ss nzero nzero); auto using zero_le_zero; [congruence|].
      intros j x Hj. apply (C j x Hj). rewrite Forall_forall in NN. apply NN. eapply nth_error_In, Hj. }
    destruct (metric_linf_dec m) as [Em|Em].
    + right. subst m. apply B. now apply Gl.
    + destruct (existsb nnan (row_vec l)) eqn:Ex.
      * left. apply existsb_exists in Ex. destruct Ex as (x & Hx & Nx).
        pose proof (zip_fold_nan m Em (row_vec l) q nzero) as G.
        rewrite Ll, Lq in G. specialize (G eq_refl).
        assert (X : Exists (fun x => nnan x = true) (row_vec l)) by (apply Exists_exists; eauto).
        specialize (G X). destruct m; cbn [post]; try exact G.
        destruct (nnan (nsqrt N _)) eqn:Es; [reflexivity|]. apply (sqrt_nan N laws) in Es. congruence.
      * right.
        assert (NN : Forall (fun x => nnan x = false) (row_vec l)).
        { apply Forall_forall. intros x Hx. destruct (nnan x) eqn:Nx; [|reflexivity].
          assert (existsb nnan (row_vec l) = true) by (apply existsb_exists; eauto). congruence. }
        specialize (B NN). destruct m; simpl; try exact B.
        now apply (sqrt_mono N laws _ _ Z B).
Qed.

Lemma D_nonneg m dim q l : length q = dim -> Forall (fun x => nfinite N x = true) q -> good m dim l ->
  lb m q nzero l.
Proof.
  intros Lq Fq G.
  destruct (update_bounds_inv dim (empty_bounds N dim) (row_vec l) (empty_bounds_wf dim) (proj1 G))
    as (b & _ & W & C & _).
  destruct (box_ok m dim b q W Lq Fq) as (db & _ & Z & H).
  destruct (H l G C) as [Hn|Hl]; [left; exact Hn|right]. eapply (le_trans N laws); eassumption.
Qed.

(** ** The search stack *)
Definition entry_ok (m : metric) (dim : nat) (q : list T) (e : T * kdt) : Prop :=
  twf dim (snd e) /\ Forall (good m dim) (elems (snd e)) /\ Forall (lb m q (fst e)) (elems (snd e)).
Definition selems (s : list (T * kdt)) : list leaf := flat_map (fun e => elems (snd e)) s.
Definition ssizes (s : list (T * kdt)) : nat := fold_right (fun e n => size N A (snd e) + n) 0 s.

Lemma selems_app s1 s2 : selems (s1 ++ s2) = selems s1 ++ selems s2.
Proof. apply flat_map_app. Qed.
Lemma ssizes_app s1 s2 : ssizes (s1 ++ s2) = ssizes s1 + ssizes s2.
Proof. induction s1; simpl; lia. Qed.

Definition dropped_ok (m : metric) (q : list T) (keep : T -> bool) (l : leaf) : Prop :=
  exists db, keep db = false /\ nle nzero db = true /\ lb m q db l.

Lemma descend_ok m dim q keep : length q = dim -> Forall (fun x => nfinite N x = true) q ->
  forall t pending, twf dim t -> Forall (good m dim) (elems t) ->
  exists data pushes dropped,
    descend N A dim (to_DIST m) q keep t pending = Some (data, pushes ++ pending) /\
    Permutation (elems t) (data ++ selems pushes ++ dropped) /\
    Forall (entry_ok m dim q) pushes /\ ssizes pushes < size N A t /\
    Forall (dropped_ok m q keep) dropped.
Proof.
  intros Lq Fq. induction t as [b data|ax sv b lt IHl rt IHr]; intros pending W G.
  - exists data, [], []. simpl. rewrite app_nil_r. repeat split; auto.
  - simpl in W, G. destruct W as (Wb & Wc & Hax & Wl & Wr). apply Forall_app in G. destruct G as [Gl Gr].
    simpl. destruct (nth_error_ex q ax) as (v & ->); [lia|].
    assert (K : forall near far, (forall pending, twf dim near -> Forall (good m dim) (elems near) ->
        exists data pushes dropped,
          descend N A dim (to_DIST m) q keep near pending = Some (data, pushes ++ pending) /\
          Permutation (elems near) (data ++ selems pushes ++ dropped) /\
          Forall (entry_ok m dim q) pushes /\ ssizes pushes < size N A near /\
          Forall (dropped_ok m q keep) dropped) ->
        twf dim near -> twf dim far -> Forall (good m dim) (elems near) -> Forall (good m dim) (elems far) ->
        exists data pushes dropped,
          match closest_dist_to_box N (bounds_of N A far) q dim (to_DIST m) with
          | None => None
          | Some db => descend N A dim (to_DIST m) q keep near
                         (if keep db then (db, far) :: pending else pending)
          end = Some (data, pushes ++ pending) /\
          Permutation (elems near ++ elems far) (data ++ selems pushes ++ dropped) /\
          Forall (entry_ok m dim q) pushes /\ ssizes pushes < S (size N A near + size N A far) /\
          Forall (dropped_ok m q keep) dropped).
    { intros near far IH Wn Wf Gn Gf.
      destruct (box_ok m dim (bounds_of N A far) q (twf_bwf _ _ Wf) Lq Fq) as (db & E & Z & H).
      rewrite E.
      assert (LB : Forall (lb m q db) (elems far)).
      { pose proof (twf_cov _ _ Wf) as Cf. unfold cov_all in Cf. rewrite Forall_forall in *.
        intros l Hl. apply H; [now apply Gf|now apply Cf]. }
      destruct (keep db) eqn:Ek.
      - destruct (IH ((db, far) :: pending) Wn Gn) as (data & pushes & dropped & Ed & P & Fo & Sz & Dr).
        exists data, (pushes ++ [(db, far)]), dropped. rewrite Ed. split; [rewrite <- app_assoc; reflexivity|].
        split; [|split; [|split]].
        + rewrite selems_app. simpl. rewrite app_nil_r, P, <- !app_assoc.
          apply Permutation_app_head, Permutation_app_head, Permutation_app_comm.
        + apply Forall_app. split; [exact Fo|]. constructor; [|constructor]. repeat split; assumption.
        + rewrite ssizes_app. simpl. lia.
        + exact Dr.
      - destruct (IH pending Wn Gn) as (data & pushes & dropped & Ed & P & Fo & Sz & Dr).
        exists data, pushes, (dropped ++ elems far). rewrite Ed. split; [reflexivity|].
        split; [|split; [|split]].
        + rewrite P, <- !app_assoc. reflexivity.
        + exact Fo.
        + lia.
        + apply Forall_app. split; [exact Dr|].
          eapply Forall_impl; [|exact LB]. intros l Hl. exists db. auto. }
    destruct (nlt v sv).
    + exact (K lt rt IHl Wl Wr Gl Gr).
    + destruct (K rt lt IHr Wr Wl Gr Gl) as (data & pushes & dropped & E & P & R1 & R2 & R3).
      exists data, pushes, dropped. split; [exact E|]. split; [|split; [|split]]; auto; [|lia].
      rewrite Permutation_app_comm. exact P.
Qed.

(** ** Range queries *)
Definition hits (m : metric) (q : list T) (r : T) (ls : list leaf) : list leaf :=
  filter (fun l => nle (D m q l) r) ls.

Lemma filter_perm {X} (f : X -> bool) l l' : Permutation l l' -> Permutation (filter f l) (filter f l').
Proof.
  induction 1; simpl; auto.
  - destruct (f x); auto.
  - destruct (f x), (f y); auto. constructor.
  - etransitivity; eassumption.
Qed.

Lemma update_nb_within_ok m q r data nbs :
  update_nb_within N A (to_DIST m) q r data nbs = nbs ++ map (mkNB N A (to_DIST m) q) (hits m q r data).
Proof.
  unfold update_nb_within, hits. revert nbs. induction data as [|l data IH]; intros nbs; simpl.
  - now rewrite app_nil_r.
  - rewrite IH. change (dist N (to_DIST m) (row_vec l) q) with (D m q l).
    destruct (nle (D m q l) r); simpl; [rewrite <- app_assoc|]; reflexivity.
Qed.

Lemma hits_far m q r x ls : nlt r x = true -> Forall (lb m q x) ls -> hits m q r ls = [].
Proof.
  intros Hx F. unfold hits. induction F as [|l ls Hl F IH]; simpl; [reflexivity|].
  destruct (nle (D m q l) r) eqn:E; [|exact IH]. exfalso.
  destruct Hl as [Hl|Hl]; [rewrite (le_nan_false _ _ Hl) in E; discriminate|].
  pose proof (le_trans N laws _ _ _ Hl E) as K. apply lt_nle in Hx. congruence.
Qed.

Lemma hits_dropped m q r ls : Forall (dropped_ok m q (fun x => nle x r)) ls -> hits m q r ls = [].
Proof.
  intros F. unfold hits. induction F as [|l ls Hl F IH]; simpl; [reflexivity|].
  destruct (nle (D m q l) r) eqn:E; [|exact IH]. exfalso.
  destruct Hl as (db & Hk & _ & [Hl|Hl]); [rewrite (le_nan_false _ _ Hl) in E; discriminate|].
  pose proof (le_trans N laws _ _ _ Hl E) as K. congruence.
Qed.

Lemma within_loop_ok m dim q r : length q = dim -> Forall (fun x => nfinite N x = true) q ->
  forall fuel pending nbs, ssizes pending <= fuel -> Forall (entry_ok m dim q) pending ->
  exists out, within_loop N A fuel dim (to_DIST m) q r pending nbs = Some out /\
    Permutation out (nbs ++ map (mkNB N A (to_DIST m) q) (hits m q r (selems pending))).
Proof.
  intros Lq Fq. induction fuel as [|fuel IH]; intros pending nbs Hs F.
  - destruct pending as [|[db t] rest].
    + exists nbs. simpl. rewrite app_nil_r. auto.
    + simpl in Hs. pose proof (size_pos t). lia.
  - destruct pending as [|[db t] rest].
    { exists nbs. simpl. rewrite app_nil_r. auto. }
    apply Forall_cons_iff in F. destruct F as [(Wt & Gt & Bt) F]. simpl in Wt, Gt, Bt, Hs |- *.
    unfold hits. rewrite filter_app.
    destruct (nlt r db) eqn:Er.
    + destruct (IH rest nbs) as (out & E & P); [pose proof (size_pos t); lia|exact F|].
      exists out. split; [exact E|]. rewrite P.
      fold (hits m q r (elems t)). rewrite (hits_far m q r db _ Er Bt). reflexivity.
    + destruct (descend_ok m dim q (fun x => nle x r) Lq Fq t rest Wt Gt)
        as (data & pushes & dropped & E & P & Fo & Sz & Dr).
      rewrite E. rewrite update_nb_within_ok.
      destruct (IH (pushes ++ rest) (nbs ++ map (mkNB N A (to_DIST m) q) (hits m q r data))) as (out & E2 & P2).
      { rewrite ssizes_app. lia. }
      { apply Forall_app. auto. }
      exists out. split; [exact E2|]. rewrite P2, <- app_assoc, <- map_app.
      apply Permutation_app_head, Permutation_map. unfold hits. rewrite <- filter_app.
      rewrite <- filter_app. 
      assert (PP : Permutation (data ++ selems (pushes ++ rest) ++ dropped) (elems t ++ selems rest)).
      { rewrite P, selems_app, <- !app_assoc. apply Permutation_app_head, Permutation_app_head.
        apply Permutation_app_comm. }
      apply (filter_perm (fun l => nle (D m q l) r)) in PP.
      rewrite app_assoc, filter_app in PP. fold (hits m q r dropped) in PP.
      rewrite (hits_dropped m q r dropped Dr), app_nil_r in PP. exact PP.
Qed.

Lemma count_hits m q r data acc :
  fold_left (fun acc l => if nle (dist N (to_DIST m) (row_vec l) q) r then S acc else acc) data acc
  = acc + length (hits m q r data).
Proof.
  unfold hits. revert acc. induction data as [|l data IH]; intros acc; simpl; [lia|].
  rewrite IH. change (dist N (to_DIST m) (row_vec l) q) with (D m q l).
  destruct (nle (D m q l) r); simpl; lia.
Qed.

Lemma count_within_loop_ok m dim q r : length q = dim -> Forall (fun x => nfinite N x = true) q ->
  forall fuel pending c, ssizes pending <= fuel -> Forall (entry_ok m dim q) pending ->
  count_within_loop N A fuel dim (to_DIST m) q r pending c
    = Some (c + length (hits m q r (selems pending))).
Proof.
  intros Lq Fq. induction fuel as [|fuel IH]; intros pending c Hs F.
  - destruct pending as [|[db t] rest]; [simpl; f_equal; lia|].
    simpl in Hs. pose proof (size_pos t). lia.
  - destruct pending as [|[db t] rest]; [simpl; f_equal; lia|].
    apply Forall_cons_iff in F. destruct F as [(Wt & Gt & Bt) F]. simpl in Wt, Gt, Bt, Hs.
    cbn [count_within_loop selems flat_map snd]. unfold hits. rewrite filter_app, app_length.
    destruct (nlt r db) eqn:Er.
    + rewrite IH; [|pose proof (size_pos t); lia|exact F].
      fold (hits m q r (elems t)). rewrite (hits_far m q r db _ Er Bt). simpl. f_equal. unfold hits, selems. lia.
    + destruct (descend_ok m dim q (fun x => nle x r) Lq Fq t rest Wt Gt)
        as (data & pushes & dropped & E & P & Fo & Sz & Dr).
      rewrite E, count_hits. rewrite IH; [|rewrite ssizes_app; lia|apply Forall_app; auto].
      f_equal.
      assert (PP : Permutation (data ++ selems (pushes ++ rest) ++ dropped) (elems t ++ selems rest)).
      { rewrite P, selems_app, <- !app_assoc. apply Permutation_app_head, Permutation_app_head.
        apply Permutation_app_comm. }
      apply (filter_perm (fun l => nle (D m q l) r)) in PP. apply Permutation_length in PP.
      rewrite !filter_app, !app_length in PP.
      fold (hits m q r dropped) in PP. rewrite (hits_dropped m q r dropped Dr) in PP.
      unfold hits. simpl length in PP. unfold selems in *. lia.
Qed.

Lemma root_ok m dim q t : length q = dim -> Forall (fun x => nfinite N x = true) q ->
  twf dim t -> Forall (good m dim) (elems t) -> entry_ok m dim q (nminv N, t).
Proof.
  intros Lq Fq W G. repeat split; try assumption. simpl. eapply Forall_impl; [|exact G].
  intros l Hl. destruct (D_nonneg m dim q l Lq Fq Hl) as [H|H]; [left; exact H|right].
  eapply (le_trans N laws); [|exact H]. apply (min_le_finite N laws), (zero_finite N laws).
Qed.

(** ** k nearest neighbours *)
Section KNN.
Context (m : metric) (dim k : nat) (q : list T) (maxb eps : T).
Hypothesis (Lq : length q = dim) (Fq : Forall (fun x => nfinite N x = true) q).
Hypothesis (Hk : 0 < k) (Heps : nle nzero eps = true).
Notation NBq := (mkNB N A (to_DIST m) q).
Notation Dq := (D m q).
Notation ndist := (@nb_dist N A).

Definition nbd (l : leaf) : T := Dq l.
Definition sorted_leaves (ls : list leaf) : Prop := StronglySorted (fun a b => nle (Dq a) (Dq b) = true) ls.

(** [p] may be left out of the answer [ch]. *)
Definition excl (ch : list leaf) (p : leaf) : Prop :=
  nlt (nadd (Dq p) eps) maxb = true ->
  length ch = k /\ Forall (fun c => nlt (nadd (Dq p) eps) (Dq c) = false) ch.

Definition Kinv (seen ch : list leaf) : Prop :=
  sorted_leaves ch /\ length ch <= k /\ Forall (fun c => nle (Dq c) maxb = true) ch /\
  exists rest, Permutation seen (ch ++ rest) /\ Forall (excl ch) rest.

Lemma D_le_eps p : good m dim p -> nnan (Dq p) = false -> nle (Dq p) (nadd (Dq p) eps) = true.
Proof.
  intros G Hn. destruct (D_nonneg m dim q p Lq Fq G) as [H|H]; [fold (Dq p) in H; congruence|].
  eapply (le_trans N laws); [apply (add_zero N laws _ H)|].
  apply (add_mono N laws); auto using zero_le_zero, (le_refl N laws).
Qed.
Lemma add_eps_nan p x : nlt (nadd (Dq p) eps) x = true -> nnan (Dq p) = false.
Proof. intros H. apply (lt_le N laws) in H. destruct H as (H & _). apply (add_nan N laws) in H. tauto. Qed.

Lemma map_NB_sorted_split di ch : sorted_leaves ch ->
  let idx := pp_prefix (fun nb => nle (ndist nb) di) (map NBq ch) in
  Forall (fun c => nle (Dq c) di = true) (firstn idx ch) /\
  (nnan di = false -> Forall (fun c => nnan (Dq c) = false) ch ->
   Forall (fun c => nle di (Dq c) = true) (skipn idx ch)).
Proof.
  intros S. induction S as [|c ch S IH F]; simpl; [split; constructor|].
  change (dist N (to_DIST m) (row_vec c) q) with (Dq c).
  destruct (nle (Dq c) di) eqn:E; simpl.
  - destruct IH as [I1 I2]. split; [constructor; assumption|].
    intros Hn Fn. apply Forall_cons_iff in Fn. apply I2; tauto.
  - split; [constructor|]. intros Hn Fn. apply Forall_cons_iff in Fn. destruct Fn as [Nc Fn].
    assert (L : nle di (Dq c) = true).
    { destruct (le_total N laws di (Dq c) Hn Nc); [assumption|congruence]. }
    constructor; [exact L|]. eapply Forall_impl; [|exact F].
    intros x Hx. eapply (le_trans N laws); eassumption.
Qed.

Lemma SS_app {X} (R : X -> X -> Prop) l1 l2 :
  StronglySorted R (l1 ++ l2) <-> StronglySorted R l1 /\ StronglySorted R l2 /\ Forall (fun a => Forall (R a) l2) l1.
Proof.
  induction l1 as [|a l1 IH]; simpl.
  - split; [intros H; repeat split; auto; constructor|tauto].
  - split.
    + intros H. apply StronglySorted_inv in H. destruct H as [H1 H2]. apply IH in H1.
      apply Forall_app in H2. destruct H1 as (A1 & A2 & A3). destruct H2 as [B1 B2].
      repeat split; try constructor; auto.
    + intros (H1 & H2 & H3). apply StronglySorted_inv in H1. destruct H1 as [H1 H1'].
      apply Forall_cons_iff in H3. destruct H3 as [H3 H3'].
      constructor; [apply IH; auto|apply Forall_app; auto].
Qed.

Lemma insert_sorted di l ch : sorted_leaves ch -> di = Dq l -> nnan di = false ->
  Forall (fun c => nnan (Dq c) = false) ch ->
  sorted_leaves (insert_at (pp_prefix (fun nb => nle (ndist nb) di) (map NBq ch)) l ch).
Proof.
  intros S Hd Hn Fn. destruct (map_NB_sorted_split di ch S) as [H1 H2]. specialize (H2 Hn Fn).
  set (idx := pp_prefix _ _) in *. unfold insert_at.
  rewrite <- (firstn_skipn idx ch) in S. apply SS_app in S. destruct S as (S1 & S2 & S3).
  apply SS_app. split; [exact S1|]. split.
  - constructor; [exact S2|]. rewrite <- Hd. exact H2.
  - rewrite Forall_forall in *. intros a Ha. constructor; [rewrite <- Hd; now apply H1|now apply S3].
Qed.

Lemma insert_at_perm {X} i (x : X) l : Permutation (insert_at i x l) (x :: l).
Proof. unfold insert_at. rewrite <- (firstn_skipn i l) at 3. symmetry. apply Permutation_middle. Qed.
Lemma map_insert_at {X Y} (f : X -> Y) i x l : map f (insert_at i x l) = insert_at i (f x) (map f l).
Proof. unfold insert_at. rewrite map_app, firstn_map. simpl. rewrite skipn_map. reflexivity. Qed.
Lemma map_removelast {X Y} (f : X -> Y) l : map f (removelast l) = removelast (map f l).
Proof.
  induction l as [|a l IH]; [reflexivity|]. destruct l as [|b l]; [reflexivity|].
  change (removelast (a :: b :: l)) with (a :: removelast (b :: l)).
  change (map f (a :: b :: l)) with (f a :: f b :: map f l).
  change (removelast (f a :: f b :: map f l)) with (f a :: removelast (map f (b :: l))).
  rewrite <- IH. reflexivity.
Qed.

Lemma le_maxb_nan ch : Forall (fun c => nle (Dq c) maxb = true) ch -> Forall (fun c => nnan (Dq c) = false) ch.
Proof. apply Forall_impl. intros c H. exact (le_nan_l N laws _ _ H). Qed.

Lemma topk_step_ok seen ch cm l : Kinv seen ch -> Forall (good m dim) (l :: seen) ->
  Forall (fun c => nle (Dq c) cm = true) ch ->
  exists ch' cm', topk_step N A (to_DIST m) k q maxb (map NBq ch, cm) l = (map NBq ch', cm') /\
    Kinv (l :: seen) ch' /\ Forall (fun c => nle (Dq c) cm' = true) ch'.
Proof.
  intros (SO & Len & Mx & rest & P & Ex) G Cm.
  apply Forall_cons_iff in G. destruct G as [Gl G].
  unfold topk_step. change (dist N (to_DIST m) (row_vec l) q) with (Dq l).
  rewrite map_length.
  destruct (nle (Dq l) maxb && (nlt (Dq l) cm || (length ch <? k))) eqn:Cond.
  - apply andb_prop in Cond. destruct Cond as [C1 C2].
    assert (Nl : nnan (Dq l) = false) by exact (le_nan_l N laws _ _ C1).
    pose proof (le_maxb_nan ch Mx) as Nch.
    rewrite <- map_insert_at. set (idx := pp_prefix _ _).
    set (ch1 := insert_at idx l ch).
    assert (S1 : sorted_leaves ch1) by now apply insert_sorted.
    assert (P1 : Permutation ch1 (l :: ch)) by apply insert_at_perm.
    assert (Cm1 : Forall (fun c => nle (Dq c) (nmax cm (Dq l)) = true) ch1).
    { eapply Forall_perm; [symmetry; exact P1|]. constructor.
      - unfold Num.nmax. destruct (nnan cm) eqn:Nc; [now apply (le_refl N laws)|].
        rewrite Nl. destruct (nlt cm (Dq l)) eqn:E; [now apply (le_refl N laws)|now apply lt_false].
      - eapply Forall_impl; [|exact Cm]. intros c Hc.
        eapply (le_trans N laws); [exact Hc|].
        apply (nmax_spec cm (Dq l)). exact (le_nan_r N laws _ _ Hc). }
    assert (M1 : Forall (fun c => nle (Dq c) maxb = true) ch1).
    { eapply Forall_perm; [symmetry; exact P1|]. constructor; assumption. }
    assert (L1 : length ch1 = S (length ch)) by (rewrite (Permutation_length P1); reflexivity).
    rewrite map_length. destruct (Nat.ltb_spec k (length ch1)) as [Hpop|Hno].
    + rewrite <- map_removelast.
      destruct (@exists_last _ ch1) as (ch' & z & Ez); [intros Hnil; rewrite Hnil in L1; discriminate|].
      rewrite Ez, removelast_last. exists ch', (nmax cm (Dq l)).
      rewrite Ez in *. apply SS_app in S1. destruct S1 as (S1 & _ & S3).
      apply Forall_app in Cm1, M1. rewrite app_length in L1, Hpop. simpl in L1, Hpop.
      assert (Lk : length ch = k) by lia.
      split; [reflexivity|]. split; [|tauto].
      split; [exact S1|]. split; [lia|]. split; [tauto|].
      exists (z :: rest).
      assert (Pz : Permutation (z :: ch') (l :: ch)).
      { rewrite <- P1. apply Permutation_cons_append. }
      split.
      * rewrite P. rewrite <- Permutation_middle.
        change (l :: ch ++ rest) with ((l :: ch) ++ rest). rewrite <- Pz. reflexivity.
      * assert (Zle : forall c, In c ch' -> nle (Dq c) (Dq z) = true).
        { intros c Hc. rewrite Forall_forall in S3. specialize (S3 c Hc). inversion S3. assumption. }
        constructor.
        -- intros Hx. split; [lia|]. apply Forall_forall. intros c Hc.
           destruct (nlt (nadd (Dq z) eps) (Dq c)) eqn:E; [|reflexivity]. exfalso.
           assert (Nz : nnan (Dq z) = false) by (eapply add_eps_nan, Hx).
           assert (Gz : good m dim z).
           { assert (In z (l :: ch)) by (eapply Permutation_in; [exact Pz|left; reflexivity]).
             destruct H as [<-|Hz]; [exact Gl|]. rewrite Forall_forall in G. apply G.
             eapply Permutation_in; [symmetry; exact P|]. apply in_or_app. auto. }
           pose proof (lt_le_trans _ _ _ E (Zle c Hc)) as E2.
           apply lt_nle in E2. rewrite (D_le_eps z Gz Nz) in E2. discriminate.
        -- rewrite Forall_forall in Ex |- *. intros p Hp Hx. split; [lia|].
           destruct (Ex p Hp Hx) as [_ Hc0]. rewrite Forall_forall in Hc0 |- *. intros c Hc.
           assert (Hin : In c (l :: ch)) by (eapply Permutation_in; [exact Pz|right; exact Hc]).
           assert (Hz : In z (l :: ch)) by (eapply Permutation_in; [exact Pz|left; reflexivity]).
           destruct Hz as [Hz|Hz].
           ++ subst z. apply Permutation_cons_inv in Pz. apply Hc0. eapply Permutation_in; eassumption.
           ++ destruct Hin as [<-|Hin]; [|now apply Hc0].
              destruct (nlt (nadd (Dq p) eps) (Dq l)) eqn:E; [|reflexivity]. exfalso.
              pose proof (lt_le_trans _ _ _ E (Zle l Hc)) as E2. rewrite (Hc0 z Hz) in E2. discriminate.
    + exists ch1, (nmax cm (Dq l)). split; [reflexivity|]. split; [|exact Cm1].
      split; [exact S1|]. split; [lia|]. split; [exact M1|].
      exists rest. split.
      * rewrite P. change (l :: ch ++ rest) with ((l :: ch) ++ rest). rewrite <- P1. reflexivity.
      * rewrite Forall_forall in Ex |- *. intros p Hp Hx. destruct (Ex p Hp Hx). lia.
  - exists ch, cm. split; [reflexivity|]. split; [|exact Cm].
    split; [exact SO|]. split; [exact Len|]. split; [exact Mx|].
    exists (l :: rest). split; [rewrite P; apply Permutation_middle|].
    constructor; [|exact Ex]. intros Hx.
    assert (Nl : nnan (Dq l) = false) by (eapply add_eps_nan, Hx).
    pose proof (D_le_eps l Gl Nl) as Hle.
    assert (C1 : nle (Dq l) maxb = true) by (apply lt_le_weak; eapply le_lt_trans; eassumption).
    rewrite C1 in Cond. simpl in Cond. apply orb_false_elim in Cond. destruct Cond as [C2 C3].
    apply Nat.ltb_ge in C3. split; [lia|].
    rewrite Forall_forall in Cm |- *. intros c Hc.
    destruct (nlt (nadd (Dq l) eps) (Dq c)) eqn:E; [|reflexivity]. exfalso.
    pose proof (lt_le_trans _ _ _ E (Cm c Hc)) as E2.
    pose proof (le_lt_trans _ _ _ Hle E2). congruence.
Qed.

Lemma update_top_k_ok : forall data seen ch cm, Kinv seen ch -> Forall (good m dim) (data ++ seen) ->
  Forall (fun c => nle (Dq c) cm = true) ch ->
  exists ch', update_top_k N A (to_DIST m) k q cm maxb data (map NBq ch) = map NBq ch' /\
    Kinv (data ++ seen) ch'.
Proof.
  unfold update_top_k. induction data as [|l data IH]; intros seen ch cm K G Cm.
  - exists ch. simpl. auto.
  - cbn [fold_left]. simpl in G. apply Forall_cons_iff in G. destruct G as [Gl G].
    apply Forall_app in G. destruct G as [Gd Gs].
    destruct (topk_step_ok seen ch cm l K (Forall_cons _ Gl Gs) Cm) as (ch1 & cm1 & E & K1 & Cm1).
    rewrite E.
    destruct (IH (l :: seen) ch1 cm1 K1) as (ch2 & E2 & K2); [|exact Cm1|].
    { apply Forall_app. auto. }
    exists ch2. split; [exact E2|].
    destruct K2 as (A1 & A2 & A3 & rest & P & Ex). repeat split; try assumption.
    exists rest. split; [|exact Ex]. rewrite <- P. apply Permutation_middle.
Qed.

Lemma Kinv_more seen ch more : Kinv seen ch -> Forall (excl ch) more -> Kinv (more ++ seen) ch.
Proof.
  intros (A1 & A2 & A3 & rest & P & Ex) H. repeat split; try assumption.
  exists (more ++ rest). split; [|apply Forall_app; auto].
  rewrite P. rewrite !app_assoc. apply Permutation_app_tail, Permutation_app_comm.
Qed.

(** the current threshold *)
Lemma threshold seen ch : Kinv seen ch ->
  exists cm, (if length (map NBq ch) <? k then Some maxb else last_dist N A (map NBq ch)) = Some cm /\
    Forall (fun c => nle (Dq c) cm = true) ch /\
    (forall p, nlt (nadd (Dq p) eps) cm = false -> excl ch p).
Proof.
  intros (S & Len & Mx & _). rewrite map_length. destruct (Nat.ltb_spec (length ch) k) as [H|H].
  - exists maxb. split; [reflexivity|]. split; [exact Mx|]. intros p Hp Hx. congruence.
  - destruct (@exists_last _ ch) as (ch' & z & Ez); [intros E; rewrite E in H; simpl in H; lia|].
    exists (Dq z). unfold last_dist. rewrite Ez, map_app, rev_app_distr. simpl. split; [reflexivity|].
    assert (C : Forall (fun c => nle (Dq c) (Dq z) = true) ch).
    { rewrite Ez in *. apply SS_app in S. destruct S as (_ & _ & S3). apply Forall_app. split.
      - rewrite Forall_forall in *. intros c Hc. specialize (S3 c Hc). inversion S3. assumption.
      - constructor; [|constructor]. apply Forall_app in Mx. destruct Mx as [_ Mx]. inversion Mx; subst.
        apply (le_refl N laws). eapply (le_nan_l N laws); eassumption. }
    rewrite <- Ez. split; [exact C|]. intros p Hp Hx. split; [lia|].
    rewrite Forall_forall in C |- *. intros c Hc.
    destruct (nlt (nadd (Dq p) eps) (Dq c)) eqn:E; [|reflexivity].
    rewrite (lt_le_trans _ _ _ E (C c Hc)) in Hp. discriminate.
Qed.

Lemma knn_loop_ok : forall fuel pending seen ch, ssizes pending <= fuel ->
  Forall (entry_ok m dim q) pending -> Forall (good m dim) seen -> Kinv seen ch ->
  exists ch', knn_loop N A fuel dim (to_DIST m) k q maxb eps pending (map NBq ch) = Some (map NBq ch') /\
    Kinv (seen ++ selems pending) ch'.
Proof.
  induction fuel as [|fuel IH]; intros pending seen ch Hs F G K.
  - destruct pending as [|[db t] rest].
    + exists ch. simpl. rewrite app_nil_r. auto.
    + simpl in Hs. pose proof (size_pos t). lia.
  - destruct pending as [|[db t] rest].
    { exists ch. simpl. rewrite app_nil_r. auto. }
    apply Forall_cons_iff in F. destruct F as [(Wt & Gt & Bt) F]. simpl in Wt, Gt, Bt, Hs.
    cbn [knn_loop]. destruct (threshold seen ch K) as (cm & -> & Cm & Th).
    assert (PERM : forall a b ch', Permutation a b -> Kinv a ch' -> Kinv b ch').
    { intros a b ch' P (A1 & A2 & A3 & r & P' & Ex). repeat split; try assumption.
      exists r. split; [rewrite <- P; exact P'|exact Ex]. }
    destruct (nlt cm db) eqn:Ec.
    + assert (EX : Forall (excl ch) (elems t)).
      { rewrite Forall_forall in Bt, Gt |- *. intros p Hp. apply Th.
        destruct (nlt (nadd (Dq p) eps) cm) eqn:E; [|reflexivity]. exfalso.
        assert (Np : nnan (Dq p) = false) by (eapply add_eps_nan, E).
        destruct (Bt p Hp) as [Hb|Hb]; [fold (Dq p) in Hb; congruence|].
        pose proof (D_le_eps p (Gt p Hp) Np) as H1.
        pose proof (le_lt_trans _ _ _ (le_trans N laws _ _ _ Hb H1) E) as H2.
        apply lt_nle in H2. apply lt_le_weak in Ec. congruence. }
      destruct (IH rest (elems t ++ seen) ch) as (ch' & E & K'); try assumption.
      { pose proof (size_pos t). lia. }
      { apply Forall_app. auto. }
      { now apply Kinv_more. }
      exists ch'. split; [exact E|]. eapply PERM; [|exact K']. simpl.
      rewrite (Permutation_app_comm (elems t) seen), <- app_assoc. reflexivity.
    + destruct (descend_ok m dim q (fun x => nlt (nadd x eps) cm) Lq Fq t rest Wt Gt)
        as (data & pushes & dropped & E & P & Fo & Sz & Dr).
      rewrite E.
      assert (GP : Forall (good m dim) (data ++ selems pushes ++ dropped)) by (eapply Forall_perm; eassumption).
      apply Forall_app in GP. destruct GP as [Gd GP]. apply Forall_app in GP. destruct GP as [_ Gdr].
      assert (EX : Forall (excl ch) dropped).
      { rewrite Forall_forall in Dr |- *. intros p Hp. apply Th.
        destruct (nlt (nadd (Dq p) eps) cm) eqn:E1; [|reflexivity]. exfalso.
        assert (Np : nnan (Dq p) = false) by (eapply add_eps_nan, E1).
        destruct (Dr p Hp) as (db' & Hk' & Z' & [Hb|Hb]); [fold (Dq p) in Hb; congruence|].
        assert (nle (nadd db' eps) (nadd (Dq p) eps) = true).
        { apply (add_mono N laws); try assumption. apply (le_refl N laws). exact (le_nan_r N laws _ _ Heps). }
        pose proof (le_lt_trans _ _ _ H E1). congruence. }
      destruct (update_top_k_ok data (dropped ++ seen) ch cm) as (ch1 & E1 & K1); try assumption.
      { now apply Kinv_more. }
      { rewrite !Forall_app. auto. }
      rewrite E1.
      destruct (IH (pushes ++ rest) (data ++ dropped ++ seen) ch1) as (ch2 & E2 & K2); try assumption.
      { rewrite ssizes_app. lia. }
      { apply Forall_app. auto. }
      { rewrite !Forall_app. auto. }
      exists ch2. split; [exact E2|]. eapply PERM; [|exact K2]. simpl. fold (selems rest).
      rewrite selems_app, P. rewrite <- !app_assoc.
      rewrite (Permutation_app_swap_app seen data). apply Permutation_app_head.
      rewrite (Permutation_app_swap_app (selems pushes) dropped).
      rewrite (Permutation_app_swap_app seen dropped). reflexivity.
Qed.

Lemma knn_unchecked_ok t : twf dim t -> Forall (good m dim) (elems t) ->
  exists ch, knn_bounded_unchecked N A dim (to_DIST m) t k q maxb eps = Some (map NBq ch) /\
    Kinv (elems t) ch.
Proof.
  intros W G. unfold knn_bounded_unchecked.
  destruct (knn_loop_ok (size N A t) [(nminv N, t)] [] []) as (ch & E & K).
  - simpl. lia.
  - constructor; [|constructor]. now apply root_ok.
  - constructor.
  - split; [constructor|]. split; [simpl; lia|]. split; [constructor|].
    exists []. split; constructor.
  - exists ch. split; [exact E|]. simpl in K. rewrite app_nil_r in K. exact K.
Qed.
End KNN.
End P.

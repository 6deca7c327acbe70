(** Demonstration data, witnesses and small corollaries used by Num2Props. *)
From Coq Require Import Bool List Arith ZArith QArith Reals Lia Lra Permutation Sorted Ascii.
From Verif Require Import Num F64 F64Facts KdModel KdSpec KdProofs PyKdModel PyKdSpec KdDemo KnnExprModel KnnExprSpec KnnExprPropsLemmas PairSums RocModel RocSpec RocProofs
  JaccModel JaccSpec JaccProofs PsiModel PsiSpec PsiProofs PsiDiscrete LzModel LzSpec LzProofs DigitModel DigitSpec DigitProofs
  CombModel CombSpec CombProofs EntropyModel EntropySpec EntropyProofs.
Import ListNotations.
Open Scope Z_scope.

(** Jaccard. *)
Lemma jaccard_col_full {K} (dec : forall a b : K, {a = b} + {a <> b}) cn (c1 c2 : list (bool * K)) :
  has_nulls c1 = false -> has_nulls c2 = false ->
  is_jaccard (elements cn (logical c1)) (elements cn (logical c2)) (jaccard_col dec cn c1 c2) /\
  (forall q, jaccard_col dec cn c1 c2 = Some q ->
     (0 <= q <= 1)%Q /\ (q == 1 <-> (forall x, elements cn (logical c1) x <-> elements cn (logical c2) x))%Q).
Proof.
  intros H1 H2. pose proof (jaccard_col_ok dec cn c1 c2 H1 H2) as J. split; [exact J|]. intros q E. rewrite E in J. now apply is_jaccard_range in J.
Qed.
Definition jac_a : list (bool * Z) := [(true, 1); (true, 2); (true, 2); (true, 3)].
Definition jac_b : list (bool * Z) := [(true, 2); (true, 3); (true, 4)].
Lemma jac_case : has_nulls jac_a = false /\ has_nulls jac_b = false /\
  match jaccard_col Z.eq_dec false jac_a jac_b with Some q => Qeq_bool q (1 # 2) | None => false end = true.
Proof. repeat split; vm_compute; reflexivity. Qed.
(** {1, null} and {0}: no common element, yet 1/2, because the null slot holds the physical value 0. *)
Definition jac_na : list (bool * Z) := [(true, 1); (false, 0)].
Definition jac_nb : list (bool * Z) := [(true, 0)].
Lemma card_of {A} (P : A -> Prop) l : NoDup l -> (forall x, In x l <-> P x) -> card P (zlen l).
Proof. intros N I. exists l. auto. Qed.
Lemma jaccard_value {A} (a b : A -> Prop) v i u : is_jaccard a b v -> card (fun x => a x /\ b x) i -> card (fun x => a x \/ b x) u -> u <> 0 ->
  exists q, v = Some q /\ (q == inject_Z i / inject_Z u)%Q.
Proof.
  intros (i' & u' & C1 & C2 & _ & H) D1 D2 U. rewrite (card_unique _ _ _ D1 C1), (card_unique _ _ _ D2 C2). apply H.
  now rewrite <- (card_unique _ _ _ D2 C2).
Qed.
Lemma jac_null_slot : (exists q, jaccard_col Z.eq_dec false jac_na jac_nb = Some q /\ (q == 1 # 2)%Q) /\
  ~ is_jaccard (elements false (logical jac_na)) (elements false (logical jac_nb)) (jaccard_col Z.eq_dec false jac_na jac_nb).
Proof.
  split; [eexists; split; [reflexivity|reflexivity]|]. intros J.
  destruct (jaccard_value _ _ _ 0 2 J) as (q & E & Q0); [apply (card_of _ []); [constructor|]|apply (card_of _ [Some 1; Some 0])|lia|].
  - intros x. unfold elements. cbn. split; [intros []|]. intros [[[<-|[<-|[]]] _] [[H|[]] _]]; discriminate.
  - constructor; [cbn; intros [H|[]]; discriminate|]. constructor; [intros []|constructor].
  - intros x. unfold elements. cbn. split.
    + intros [<-|[<-|[]]]; [left|right]; split; auto; discriminate.
    + intros [[[<-|[<-|[]]] H]|[[<-|[]] H]]; auto. specialize (H eq_refl). discriminate.
  - vm_compute in E. injection E as <-. vm_compute in Q0. discriminate.
Qed.
(** {1, null} and {2, null} with nulls counted: one common element out of three, yet 1. *)
Definition jac_ca : list (bool * Z) := [(true, 1); (false, 0)].
Definition jac_cb : list (bool * Z) := [(true, 2); (false, 0)].
Lemma jac_count_null : (exists q, jaccard_col Z.eq_dec true jac_ca jac_cb = Some q /\ (q == 1)%Q) /\
  ~ is_jaccard (elements true (logical jac_ca)) (elements true (logical jac_cb)) (jaccard_col Z.eq_dec true jac_ca jac_cb).
Proof.
  split; [eexists; split; [reflexivity|reflexivity]|]. intros J.
  destruct (jaccard_value _ _ _ 1 3 J) as (q & E & Q0); [apply (card_of _ [None])|apply (card_of _ [Some 1; None; Some 2])|lia|].
  - constructor; [intros []|constructor].
  - intros x. unfold elements. cbn. split; [intros [<-|[]]; auto|]. intros [[[<-|[<-|[]]] _] [[H|[H|[]]] _]]; try discriminate; auto.
  - repeat constructor; cbn; intuition discriminate.
  - intros x. unfold elements. cbn. split.
    + intros [<-|[<-|[<-|[]]]]; [left|left|right]; split; auto; discriminate.
    + intros [[[<-|[<-|[]]] H]|[[<-|[<-|[]]] H]]; auto.
  - vm_compute in E. injection E as <-. vm_compute in Q0. discriminate.
Qed.
Definition lj_a : list (option (list (option Z))) := [Some [Some 1; Some 2]; None; Some [None; Some 3]].
Definition lj_b : list (option (list (option Z))) := [Some [Some 2]; Some []; Some [None]].
Lemma lj_case : length lj_a = length lj_b /\
  list_jaccard Z.eq_dec lj_a lj_b = [Some (Some (1 # 2)%Q); None; Some (Some (1 # 2)%Q)].
Proof. split; vm_compute; reflexivity. Qed.

(** PSI: [option Z] with [None] as +infinity. *)
Definition zinf_leb (a b : option Z) : bool := match a, b with _, None => true | None, Some _ => false | Some x, Some y => x <=? y end.
Lemma zinf_total : total_order zinf_leb.
Proof.
  split.
  - intros [a|] [b|]; cbn; auto. destruct (Z.le_gt_cases a b); [left|right]; apply Z.leb_le; lia.
  - intros [a|] [b|] [c|]; cbn; intros H1 H2; try congruence. apply Z.leb_le. apply Z.leb_le in H1, H2. lia.
  - intros [a|] [b|]; cbn; intros H1 H2; try congruence. apply Z.leb_le in H1, H2. f_equal. lia.
Qed.
Lemma zinf_top : forall x, zinf_leb x None = true.
Proof. intros [x|]; reflexivity. Qed.
Definition psi_base : list (option Z) := map Some [1; 2; 3; 4; 5; 6].
Definition psi_new : list (option Z) := map Some [2; 2; 7; 9].
Definition psi_bps : list (option Z) := map Some [2; 4].
Lemma psi_bps_asc : ascending zinf_leb (psi_bps ++ [None]).
Proof.
  apply sorted_asc. unfold psi_bps. cbn. repeat constructor.
Qed.
Lemma psi_case : ascending zinf_leb (psi_bps ++ [None]) /\ psi_base <> [] /\ psi_new <> [] /\ zlen psi_base < 2 ^ 32 /\ zlen psi_new < 2 ^ 32 /\
  map (bin_count zinf_leb (psi_bps ++ [None]) psi_base) (seq 0 3) = [2; 2; 2] /\
  map (bin_count zinf_leb (psi_bps ++ [None]) psi_new) (seq 0 3) = [2; 0; 2].
Proof. split; [exact psi_bps_asc|]. repeat split; vm_compute; congruence. Qed.
Lemma psi_learned_case : StronglySorted (fun a b => zinf_leb a b = true) psi_bps /\
  psi_brk zinf_leb None psi_bps psi_base = [Some 2; Some 4; None] /\
  forall x, In x psi_new -> exists b, In b (psi_brk zinf_leb None psi_bps psi_base) /\ zinf_leb x b = true.
Proof.
  split; [repeat constructor|]. assert (E : psi_brk zinf_leb None psi_bps psi_base = [Some 2; Some 4; None]) by (vm_compute; reflexivity).
  split; [exact E|]. intros x _. rewrite E. exists None. split; [cbn; auto|apply zinf_top].
Qed.
Lemma psi_self {K} (leb : K -> K -> bool) (TO : total_order leb) inf qs ref : StronglySorted (fun a b => leb a b = true) qs -> (forall x, leb x inf = true) ->
  ref <> [] -> zlen ref < 2 ^ 32 -> exists rep, psi leb inf qs ref ref = Some rep /\ psi_total rep = Some 0%R.
Proof.
  intros Q Top N L. destruct (psi_ok leb TO inf qs ref Q Top ref N N L) as (rep & E & R).
  - intros x Hx. exists (qlabel leb inf qs x). split; [apply (brk_in leb TO); eauto|now apply qlabel_ge].
  - exists rep. split; [exact E|]. destruct (report_total leb _ _ _ _ R) as (t & Et & _ & Z0). rewrite Et. f_equal. apply Z0. reflexivity.
Qed.
Lemma psi_gap : psi zinf_leb None (map Some [1; 1; 1]) [Some 2] (map Some [1; 1; 1]) = None.
Proof. reflexivity. Qed.

Lemma discrete_total {K} (od : forall a b : option K, {a = b} + {a <> b}) (base new : list (option K)) rep : category_report od base new rep ->
  exists t, psi_total rep = Some t /\ (0 <= t)%R /\
    (t = 0%R <-> forall c, In c base \/ In c new ->
       share (Z.of_nat (count_occ od base c)) (zlen base) = share (Z.of_nat (count_occ od new c)) (zlen new)).
Proof.
  intros (cats & ND & I & L & H). unfold psi_total. destruct (PsiProofs.rsum_nonneg p_psi rep) as (t & E & T & Z0).
  - intros r Hr. apply In_nth_error in Hr. destruct Hr as (j & Hj).
    assert (Hc : exists c, nth_error cats j = Some c).
    { destruct (nth_error cats j) eqn:E; [eauto|]. apply nth_error_None in E. assert (X : nth_error rep j <> None) by congruence. apply nth_error_Some in X. lia. }
    destruct Hc as (c & Hc). destruct (H j c r Hc Hj) as (_ & _ & _ & _ & P). eexists. split; [exact P|]. apply contribution_nonneg; apply share_pos.
  - exists t. split; [exact E|]. split; [exact T|]. rewrite Z0. split.
    + intros Z c Hc. apply I in Hc. apply In_nth_error in Hc. destruct Hc as (j & Hj).
      assert (Hr : exists r, nth_error rep j = Some r).
      { destruct (nth_error rep j) eqn:Er; [eauto|]. apply nth_error_None in Er. assert (X : nth_error cats j <> None) by congruence. apply nth_error_Some in X. lia. }
      destruct Hr as (r & Hr). destruct (H j c r Hj Hr) as (_ & _ & _ & _ & P). rewrite (Z r) in P by (eapply nth_error_In; eassumption).
      injection P as P. symmetry in P. apply contribution_zero in P; [exact P|apply share_pos..].
    + intros S r Hr. apply In_nth_error in Hr. destruct Hr as (j & Hj).
      assert (Hc : exists c, nth_error cats j = Some c).
      { destruct (nth_error cats j) eqn:Ec; [eauto|]. apply nth_error_None in Ec. assert (X : nth_error rep j <> None) by congruence. apply nth_error_Some in X. lia. }
      destruct Hc as (c & Hc). destruct (H j c r Hc Hj) as (_ & _ & _ & _ & P). rewrite P, (S c) by (apply I; eapply nth_error_In; eassumption).
      f_equal. apply contribution_refl, share_pos.
Qed.
Lemma discrete_full {K} (dec : forall a b : K, {a = b} + {a <> b}) (od : forall a b : option K, {a = b} + {a <> b}) (base new : list (option K)) :
  new <> [] -> base <> [] -> ~ (In None new /\ In None base) -> category_report od base new (psi_discrete dec new base).
Proof. intros Nn Nb O. now apply discrete_report. Qed.
Lemma discrete_self {K} (dec : forall a b : K, {a = b} + {a <> b}) (x : list (option K)) : x <> [] -> ~ In None x ->
  psi_total (psi_discrete dec x x) = Some 0%R.
Proof.
  intros N O. pose proof (discrete_full dec (odec dec) x x N N ltac:(tauto)) as R. destruct (discrete_total _ _ _ _ R) as (t & E & _ & Z0).
  rewrite E. f_equal. apply Z0. reflexivity.
Qed.
Definition pd_base : list (option Z) := [Some 1; Some 1; Some 2].
Definition pd_new : list (option Z) := [Some 2; Some 3; None].
Lemma pd_case : pd_new <> [] /\ pd_base <> [] /\ ~ (In None pd_new /\ In None pd_base) /\ length (psi_discrete Z.eq_dec pd_new pd_base) = 4%nat.
Proof.
  split; [discriminate|]. split; [discriminate|]. split; [|vm_compute; reflexivity]. cbn. intuition discriminate.
Qed.
Definition pd_null : list (option Z) := [None; Some 0].
Lemma pd_null_positive : exists t, psi_total (psi_discrete Z.eq_dec pd_null pd_null) = Some t /\ (0 < t)%R.
Proof.
  eexists. split.
  - cbn [psi_discrete]. unfold psi_discrete. cbn -[Rmax ln]. unfold psi_total. cbn -[Rmax ln]. reflexivity.
  - assert (Rmax (0 / 2) (1 / 10000) = 1 / 10000)%R as -> by (apply Rmax_right; lra).
    assert (Rmax (1 / 2) (1 / 10000) = 1 / 2)%R as -> by (apply Rmax_left; lra).
    pose proof (contribution_nonneg (1 / 2) (1 / 2)) as H1. pose proof (contribution_nonneg (1 / 2) (1 / 10000)) as H2. pose proof (contribution_nonneg (1 / 10000) (1 / 2)) as H3.
    pose proof (contribution_zero (1 / 10000) (1 / 2)) as H4. unfold contribution in *.
    destruct (Req_dec ((1 / 10000 - 1 / 2) * ln (1 / 10000 / (1 / 2)))%R 0) as [E|E]; [specialize (H4 ltac:(lra) ltac:(lra) E); lra|].
    specialize (H1 ltac:(lra) ltac:(lra)). specialize (H2 ltac:(lra) ltac:(lra)). specialize (H3 ltac:(lra) ltac:(lra)). lra.
Qed.

(** Lempel-Ziv. *)
Lemma lz_full bits : exists ps rest, lz_parse [] bits ps rest /\ (forall ps' rest', lz_parse [] bits ps' rest' -> ps' = ps) /\
  bits = concat ps ++ rest /\ NoDup ps /\ lempel_ziv (map Some bits) = Some (length ps) /\ (bits <> [] -> (1 <= length ps <= length bits)%nat).
Proof.
  destruct (lempel_ziv_ok (map Some bits)) as (ps & rest & P & E). rewrite map_map in P. cbn [bit] in P. rewrite map_id in P.
  exists ps, rest. split; [exact P|]. split; [intros ps' rest' P'; symmetry; apply (parse_unique [] bits ps rest ps' rest' P P')|].
  split; [exact (parse_concat _ _ _ _ P)|]. split; [exact (proj1 (parse_new _ _ _ _ P))|]. split; [exact E|].
  intros N. split; [exact (parse_nonempty _ _ _ P N)|exact (parse_length _ _ _ _ P)].
Qed.
Lemma lz_case : lempel_ziv (map Some [true; false; false; true; false; true; true; false; true; true]) = Some 4%nat.
Proof. vm_compute. reflexivity. Qed.

(** First digits. *)
Lemma digits_int (vals : list Z) : zlen vals < 2 ^ 32 ->
  exists out, first_digit_cnt (map (fun v => (true, v)) vals) = Some out /\ length out = 9%nat /\
    (forall d (p : Z -> bool), 1 <= d <= 9 -> (forall v, p v = true <-> leading d v) ->
       nth_error out (Z.to_nat (d - 1)) = Some (zlen (filter p vals))) /\
    zsum (fun x => x) out = zlen (filter (fun v => negb (v =? 0)) vals).
Proof.
  intros L. destruct (first_digit_cnt_physical (map (fun v => (true, v)) vals)) as (out & E & Ln & D & S); [unfold zlen in *; now rewrite map_length|].
  rewrite map_map in D, S. cbn [snd] in D, S. rewrite map_id in D, S. eauto.
Qed.
Lemma digits_case : first_digit_cnt (map (fun v => (true, v)) [123; -19; 0; 7; 999; 10]) = Some [3; 0; 0; 0; 0; 0; 1; 0; 1].
Proof. vm_compute. reflexivity. Qed.
(** A null slot with physical value 5 is counted. *)
Lemma digits_null : first_digit_cnt [(false, 5); (true, 7)] = Some [0; 0; 0; 0; 1; 0; 1; 0; 0].
Proof. vm_compute. reflexivity. Qed.
Lemma digits_text (vals : list (option (list ascii))) : zlen vals < 2 ^ 32 -> (forall t, In (Some t) vals -> exists q, denotes t q) ->
  exists out, first_digit_cnt_text (map (fun v => (true, v)) vals) = Some out /\ length out = 9%nat /\
    (forall d (p : list ascii -> bool), 1 <= d <= 9 -> (forall t q, denotes t q -> (p t = true <-> leading_q d q)) ->
       nth_error out (Z.to_nat (d - 1)) = Some (zlen (filter p (drop_nulls vals)))).
Proof.
  intros L H. destruct (first_digit_cnt_text_physical (map (fun v => (true, v)) vals)) as (out & E & Ln & D).
  - unfold zlen in *. now rewrite map_length.
  - rewrite map_map. cbn [snd]. now rewrite map_id.
  - rewrite map_map in D. cbn [snd] in D. rewrite map_id in D. exists out. split; [exact E|]. split; [exact Ln|].
    assert (X : texts vals = drop_nulls vals) by (clear; induction vals as [|[t|] l IH]; cbn; [reflexivity| |exact IH]; f_equal; exact IH).
    rewrite <- X. exact D.
Qed.
Lemma text_case : denotes ["0"; "."; "0"; "2"; "5"]%char (inject_Z 25 * Qpower 10 (- 3)) /\
  first_digit_cnt_text (map (fun v => (true, v)) [Some ["0"; "."; "0"; "2"; "5"]%char; None; Some ["1"; "2"]%char]) = Some [1; 1; 0; 0; 0; 0; 0; 0; 0].
Proof.
  split; [|vm_compute; reflexivity]. exists ["0"%char], ["0"; "2"; "5"]%char, 25. split; [now right|]. split; reflexivity.
Qed.

(** Combinations. *)
Lemma comb_case : combinations Z.leb [Some 3; None; Some 1; Some 3; Some 2] 2 true = Some [[1; 2]; [1; 3]; [2; 3]] /\
  combinations Z.leb [Some 3; None; Some 1; Some 3] 2 false = Some [[3; 1]; [3; 3]; [1; 3]] /\
  product [Some 1; None; Some 2] [Some 5; Some 6] = [[1; 5]; [1; 6]; [2; 5]; [2; 6]].
Proof. repeat split; vm_compute; reflexivity. Qed.

(** Entropy over f64. *)
Open Scope nat_scope.
Lemma f64_self_zero (x : f64) : nfinite f64_ops x = true -> nle f64_ops (nabs f64_ops (nsub f64_ops x x)) (nzero f64_ops) = true.
Proof.
  intros F. assert (Fx : fin x (Flocq.IEEE754.BinarySingleNaN.B2R x)) by (split; [exact F|reflexivity]).
  pose proof (fin_sub x x _ _ 0 ltac:(lia) Fx Fx) as S. rewrite Rminus_eq_0, Rabs_R0 in S. specialize (S (Flocq.Core.Raux.bpow_ge_0 _ _)).
  apply fin_abs in S. pose proof (fin_le _ _ _ _ S fin_zero) as E. cbn [nle nabs nsub f64_ops]. etransitivity; [exact E|].
  assert (R0 : rnd64 0 = 0%R) by apply Flocq.Core.Generic_fmt.round_0, Flocq.Core.Generic_fmt.valid_rnd_N. rewrite R0, Rabs_R0. apply Flocq.Core.Raux.Rle_bool_true. lra.
Qed.
Notation lag ts m := (lag_columns f64_ops (map Some ts) m).
Notation eps0 := (nadd f64_ops (nzero f64_ops) (neps f64_ops)).
Lemma sampen (lib : SplitLib f64_ops unit) order (ts : list f64) m r trace :
  lib_ok f64_ops unit lib -> (forall l, Permutation (order l) l) -> all_finite f64_ops ts -> 1 <= m -> 2 * m <= length ts ->
  nfinite f64_ops r = true -> nle f64_ops r eps0 = false -> (Z.of_nat (length ts) < 2 ^ 16)%Z ->
  interleaving (all_writes f64_ops (length (lag ts m)) 0 (lag ts m)) trace ->
  sample_entropy f64_ops lib order (map Some ts) m (Some r) trace =
  Ok (Some (matches f64_ops ts m (length ts + 1 - m) r, matches f64_ops ts (m + 1) (length ts - m) r)).
Proof.
  intros LO Ord Fin M1 Len Rfin Reps B IL.
  assert (Rzero : nle f64_ops r (nzero f64_ops) = false).
  { destruct (nle f64_ops r (nzero f64_ops)) eqn:E; [|reflexivity]. rewrite <- Reps. symmetry. apply (le_trans f64_ops f64_laws _ _ _ E). reflexivity. }
  replace (length ts - m) with (length ts + 1 - m - 1) by lia.
  exact (sample_entropy_ok f64_ops f64_laws f64_self_zero lib LO order Ord ts m r Fin M1 Len Reps Rfin Rzero trace IL B).
Qed.
Lemma apen (lib : SplitLib f64_ops unit) order (ts : list f64) m r trace :
  lib_ok f64_ops unit lib -> (forall l, Permutation (order l) l) -> all_finite f64_ops ts -> 1 <= m -> 2 * m <= length ts ->
  nfinite f64_ops r = true -> nle f64_ops r eps0 = false ->
  interleaving (all_writes f64_ops (length (lag ts m)) 0 (lag ts m)) trace ->
  exists p, approx_counts f64_ops lib order (map Some ts) m (Some r) trace = Ok (Some p) /\
    approx_value p = Rabs (phi_spec (near f64_ops ts (m + 1) (length ts - m) r) (length ts - m) -
                           phi_spec (near f64_ops ts m (length ts + 1 - m) r) (length ts + 1 - m)).
Proof.
  intros LO Ord Fin M1 Len Rfin Reps IL.
  assert (Rzero : nle f64_ops r (nzero f64_ops) = false).
  { destruct (nle f64_ops r (nzero f64_ops)) eqn:E; [|reflexivity]. rewrite <- Reps. symmetry. apply (le_trans f64_ops f64_laws _ _ _ E). reflexivity. }
  destruct (approx_counts_ok f64_ops f64_laws lib LO order Ord ts m r Fin M1 Len Reps Rfin Rzero trace IL) as (cb & ca & E & Pb & Pa).
  exists (cb, ca). split; [exact E|]. unfold approx_value. cbn [fst snd]. replace (length ts - m) with (length ts + 1 - m - 1) by lia.
  now rewrite (phi_ok _ _ _ Pb), (phi_ok _ _ _ Pa).
Qed.
Lemma sampen_tiny (lib : SplitLib f64_ops unit) order (ts : list f64) m r trace :
  lib_ok f64_ops unit lib -> (forall l, Permutation (order l) l) -> all_finite f64_ops ts -> 1 <= m -> 2 * m <= length ts ->
  nfinite f64_ops r = true -> nle f64_ops r (nzero f64_ops) = false -> nle f64_ops r eps0 = true ->
  interleaving (all_writes f64_ops (length (lag ts m)) 0 (lag ts m)) trace ->
  sample_entropy f64_ops lib order (map Some ts) m (Some r) trace =
  Ok (Some (- Z.of_nat (length ts + 1 - m), - Z.of_nat (length ts - m)))%Z.
Proof. exact (sample_entropy_tiny f64_ops f64_laws lib order ts m r trace). Qed.
Definition se_ts : list f64 := map fi [1; 2; 1; 2; 1; 3]%Z.
Lemma se_case : all_finite f64_ops se_ts /\ 2 * 2 <= length se_ts /\ nfinite f64_ops (fi 1) = true /\ nle f64_ops (fi 1) eps0 = false /\
  matches f64_ops se_ts 2 5 (fi 1) = 16%Z /\ matches f64_ops se_ts 3 4 (fi 1) = 8%Z.
Proof.
  split; [repeat constructor|]. split; [cbn; lia|]. split; [reflexivity|]. split; [vm_compute; reflexivity|]. split; vm_compute; reflexivity.
Qed.
Definition tiny : f64 := fz 1 (-60).
Lemma tiny_case : nfinite f64_ops tiny = true /\ nle f64_ops tiny (nzero f64_ops) = false /\ nle f64_ops tiny eps0 = true.
Proof. repeat split; vm_compute; reflexivity. Qed.
(** 65537 zeros, m = 2: the count of matching pairs is 2^32, which is 0 in a u32. *)
Definition wrap_ts : list f64 := repeat (fi 0) (Z.to_nat 65537).
Lemma sampen_wraps lib order trace : lib_ok f64_ops unit lib -> (forall l, Permutation (order l) l) ->
  interleaving (all_writes f64_ops (length (lag wrap_ts 2)) 0 (lag wrap_ts 2)) trace ->
  exists a, sample_entropy f64_ops lib order (map Some wrap_ts) 2 (Some (fi 1)) trace = Ok (Some (-65536, a))%Z /\
    matches f64_ops wrap_ts 2 (length wrap_ts + 1 - 2) (fi 1) = (65536 * 65535)%Z.
Proof.
  intros LO Ord IL.
  assert (L : length wrap_ts = Z.to_nat 65537) by apply repeat_length.
  assert (Fin : all_finite f64_ops wrap_ts) by (apply Forall_forall; intros y Hy; apply repeat_spec in Hy; now subst).
  assert (K : Z.of_nat (length wrap_ts + 1 - 2) = 65536%Z) by (rewrite L; lia).
  assert (M : matches f64_ops wrap_ts 2 (length wrap_ts + 1 - 2) (fi 1) = (65536 * 65535)%Z).
  { etransitivity; [apply (matches_constant f64_ops f64_laws f64_self_zero (fi 0) (Z.to_nat 65537)); [reflexivity|reflexivity|vm_compute; reflexivity|rewrite L; lia]|].
    rewrite K. reflexivity. }
  assert (L2 : 2 * 2 <= length wrap_ts) by (rewrite L; lia).
  eexists. split; [|exact M].
  etransitivity; [apply (sample_entropy_mod f64_ops f64_laws f64_self_zero lib LO order Ord wrap_ts 2 (fi 1) Fin); [lia|exact L2|vm_compute; reflexivity|reflexivity|vm_compute; reflexivity|exact IL]|].
  change (length (A := carrier f64_ops) wrap_ts) with (length (A := f64) wrap_ts). rewrite M, K. reflexivity.
Qed.

(** Proofs: volume_neutral, downsample, random_cols, split_by_ratio. *)
From Coq Require Import Bool List Arith ZArith Reals Lra Lia Permutation Sorted.
From Flocq Require Import Core IEEE754.BinarySingleNaN.
From Verif Require Import Num F64 KdDemo F64Facts KdProofs CombModel CombSpec CombProofs SplitModel SplitSpec SplitProofs.
Import ListNotations.
Open Scope nat_scope.

(** * volume_neutral *)
Section Neutral.
Context {A C B : Type} (cdec : forall x y : C, {x = y} + {x <> y}) (bdec : forall x y : B, {x = y} + {x <> y}).
Lemma fold_min_least : forall l z, least (fun x => x = z \/ In x l) (fold_left Z.min l z).
Proof.
  induction l as [|y l IH]; intros z; cbn.
  - split; [now left|]. intros x [->|[]]. lia.
  - destruct (IH (Z.min z y)) as [P L]. split.
    + destruct P as [->|P]; [|now right; right]. destruct (Z.min_spec z y) as [[_ ->]|[_ ->]]; auto.
    + intros x [->|[->|H]].
      * eapply Z.le_trans; [apply L; now left|lia].
      * eapply Z.le_trans; [apply L; now left|lia].
      * apply L. now right.
Qed.
Lemma min_count_least bys : bys <> [] -> exists m, min_count bdec bys = Some m /\
  least (fun x => exists b, In b bys /\ x = Z.of_nat (count_occ bdec bys b)) m.
Proof.
  intros NE. unfold min_count. set (f := fun b => Z.of_nat (count_occ bdec bys b)).
  destruct (map f (nodup bdec bys)) as [|z zs] eqn:E.
  { destruct bys as [|b bys]; [contradiction|].
    assert (In b (nodup bdec (b :: bys))) by (apply nodup_In; now left).
    destruct (nodup bdec (b :: bys)); [contradiction|discriminate]. }
  eexists. split; [reflexivity|].
  destruct (fold_min_least zs z) as [P L].
  assert (I : forall x, (x = z \/ In x zs) <-> exists b, In b bys /\ x = f b).
  { intros x. transitivity (In x (map f (nodup bdec bys))).
    - rewrite E. cbn. split; intros [H|H]; auto.
    - rewrite in_map_iff. split; intros (b & H1 & H2); exists b; [rewrite nodup_In in H2|rewrite nodup_In]; auto. }
  split; [now apply I|]. intros x H. apply L, I, H.
Qed.
Lemma target_least tv bys : bys <> [] -> exists m, target bdec tv bys = Some m /\
  least (fun x => tv = Some x \/ exists b, In b bys /\ x = Z.of_nat (count_occ bdec bys b)) m.
Proof.
  intros NE. destruct (min_count_least bys NE) as (m & E & P & L). unfold target. rewrite E.
  destruct tv as [t|].
  - eexists. split; [reflexivity|]. split.
    + destruct (Z.min_spec m t) as [[_ ->]|[_ ->]]; [now right|now left].
    + intros x [H|H]; [injection H as ->; lia|]. specialize (L x H). lia.
  - exists m. split; [reflexivity|]. split; [now right|]. intros x [H|H]; [discriminate|]. now apply L.
Qed.

Context (ctrl : A -> C) (by_ : A -> B).
Notation seg := (seg cdec bdec ctrl by_).
Lemma seg_isg c b a : isg (pdec cdec bdec) (fun a => (ctrl a, by_ a)) (c, b) a = seg c b a.
Proof.
  unfold isg, SplitSpec.seg. destruct (pdec cdec bdec (ctrl a, by_ a) (c, b)) as [E|N], (cdec (ctrl a) c), (bdec (by_ a) b); cbn; congruence.
Qed.
Definition segs (c : C) (df : list A) : list B := map by_ (filter (fun a => if cdec (ctrl a) c then true else false) df).
Lemma segs_count c b df : count_occ bdec (segs c df) b = count (seg c b) df.
Proof.
  unfold segs, count. induction df as [|a df IH]; [reflexivity|]. cbn. unfold SplitSpec.seg at 1.
  destruct (cdec (ctrl a) c); cbn; [|exact IH]. destruct (bdec (by_ a) b); cbn; [f_equal|]; exact IH.
Qed.
Lemma segs_in c b df : In b (segs c df) <-> 0 < count (seg c b) df.
Proof. rewrite <- segs_count. apply count_occ_In. Qed.
Lemma count_ext {T} (p q : T -> bool) l : (forall a, p a = q a) -> count p l = count q l.
Proof. intros H. unfold count. f_equal. now apply filter_ext. Qed.

Lemma volume_neutral_ok tv sh df c b : group_shuffles sh -> 0 < count (seg c b) df ->
  exists T, least (fun x => tv = Some x \/ exists b', 0 < count (seg c b') df /\ x = Z.of_nat (count (seg c b') df)) T /\
    Z.of_nat (count (seg c b) (volume_neutral cdec bdec ctrl by_ tv sh df)) = Z.max 0 T.
Proof.
  intros H P. assert (NE : segs c df <> []).
  { intros E. apply segs_in in P. rewrite E in P. destruct P. }
  destruct (target_least tv (segs c df) NE) as (T & ET & PT & LT). exists T. split.
  { split.
    - destruct PT as [PT|(b' & I & ->)]; [now left|]. right. exists b'. split; [now apply segs_in|]. now rewrite segs_count.
    - intros x [Hx|(b' & I & ->)]; apply LT; [now left|]. right. exists b'. split; [now apply segs_in|]. now rewrite segs_count. }
  unfold volume_neutral.
  set (t := fun g : C * B => match target bdec tv (segs (fst g) df) with Some t => t | None => 0%Z end).
  rewrite (map_ext _ (pass (fun a => (ctrl a, by_ a)) t)).
  2:{ intros [i a]. unfold pass, t. cbn [fst snd]. fold (segs (ctrl a) df).
      destruct (target bdec tv (segs (ctrl a) df)); [reflexivity|]. symmetry. apply Z.ltb_ge. lia. }
  rewrite <- (count_ext (isg (pdec cdec bdec) (fun a => (ctrl a, by_ a)) (c, b)) (seg c b)) by apply seg_isg.
  rewrite over_count by exact H.
  rewrite (count_ext _ (seg c b)) by apply seg_isg.
  unfold t. cbn [fst]. rewrite ET.
  assert (T <= Z.of_nat (count (seg c b) df))%Z.
  { apply LT. right. exists b. split; [now apply segs_in|]. now rewrite segs_count. }
  lia.
Qed.
Lemma volume_neutral_sub tv sh df : subseq (volume_neutral cdec bdec ctrl by_ tv sh df) df.
Proof. apply keep_subseq. Qed.
End Neutral.

(** * downsample *)
Lemma keep_ext {A} (p : A -> bool) : forall df m1 m2, length m1 = length df -> length m2 = length df ->
  (forall i a, nth_error df i = Some a -> p a = true -> nth_error m1 i = nth_error m2 i) ->
  filter p (keep m1 df) = filter p (keep m2 df).
Proof.
  induction df as [|a df IH]; intros [|b1 m1] [|b2 m2] E1 E2 H; try discriminate; [reflexivity|].
  rewrite !keep_cons, !filter_app. rewrite (IH m1 m2); [|now injection E1|now injection E2|intros i x; apply (H (S i))].
  f_equal. destruct (p a) eqn:P.
  - specialize (H 0 a eq_refl P). cbn in H. injection H as ->. reflexivity.
  - destruct b1, b2; cbn; now rewrite ?P.
Qed.
Lemma keep_all {A} (df : list A) : keep (repeat true (length df)) df = df.
Proof. induction df as [|a df IH]; [reflexivity|]. cbn [length repeat]. rewrite keep_cons, IH. reflexivity. Qed.

Definition and2 (acc f : list (option bool)) := map (fun p => kand (fst p) (snd p)) (combine acc f).
Lemma and2_nth acc f i : length acc = length f ->
  nth_error (and2 acc f) i = match nth_error acc i, nth_error f i with Some a, Some b => Some (kand a b) | _, _ => None end.
Proof.
  unfold and2. revert f i. induction acc as [|a acc IH]; intros [|b f] i E; try discriminate.
  - destruct i; reflexivity.
  - destruct i as [|i]; cbn; [reflexivity|]. apply IH. now injection E.
Qed.
Lemma and2_length acc f n : length acc = n -> length f = n -> length (and2 acc f) = n.
Proof. intros H1 H2. unfold and2. rewrite map_length, combine_length. lia. Qed.
Lemma kand_true a b : is_true3 (kand a b) = is_true3 a && is_true3 b.
Proof. destruct a as [[]|], b as [[]|]; reflexivity. Qed.
Definition mtrue (f : list (option bool)) (i : nat) : bool := match nth_error f i with Some x => is_true3 x | None => false end.
Lemma fold_and_nth n : forall fs acc i, length acc = n -> (forall f, In f fs -> length f = n) -> i < n ->
  length (fold_left and2 fs acc) = n /\
  mtrue (fold_left and2 fs acc) i = mtrue acc i && forallb (fun f => mtrue f i) fs.
Proof.
  induction fs as [|f fs IH]; intros acc i Ea Ef Hi; cbn.
  - split; [exact Ea|]. now rewrite andb_true_r.
  - assert (Lf : length f = n) by (apply Ef; now left).
    destruct (IH (and2 acc f) i) as [L M]; [now apply and2_length|intros; apply Ef; now right|exact Hi|].
    split; [exact L|]. rewrite M. rewrite andb_assoc. f_equal.
    unfold mtrue. rewrite and2_nth by lia.
    destruct (nth_error acc i) eqn:Na; [|apply nth_error_None in Na; lia].
    destruct (nth_error f i) eqn:Nf; [|apply nth_error_None in Nf; lia]. apply kand_true.
Qed.
Lemma fold_and_length n : forall fs acc, length acc = n -> (forall f, In f fs -> length f = n) -> length (fold_left and2 fs acc) = n.
Proof.
  induction fs as [|f fs IH]; intros acc Ea Ef; cbn; [exact Ea|].
  apply IH; [apply and2_length; [exact Ea|apply Ef; now left]|intros; apply Ef; now right].
Qed.
Lemma and_all_nth n fs i : (forall f, In f fs -> length f = n) -> i < n ->
  nth_error (map is_true3 (and_all n fs)) i = Some (forallb (fun f => mtrue f i) fs).
Proof.
  intros Ef Hi. unfold and_all. fold and2.
  destruct (fold_and_nth n fs (repeat (Some true) n) i (repeat_length _ _) Ef Hi) as [L M].
  rewrite nth_error_map. unfold mtrue at 1 2 in M. rewrite nth_error_repeat in M by exact Hi. cbn in M.
  change (fun acc f => map (fun p => kand (fst p) (snd p)) (combine acc f)) with and2.
  destruct (nth_error (fold_left and2 fs (repeat (Some true) n)) i) eqn:E; [|apply nth_error_None in E; lia].
  cbn. now rewrite M.
Qed.
Lemma and_all_length n fs : (forall f, In f fs -> length f = n) -> length (map is_true3 (and_all n fs)) = n.
Proof. intros Ef. rewrite map_length. apply (fold_and_length n); [apply repeat_length|exact Ef]. Qed.

Section Down.
Context {A : Type} (df : list A).
Definition is3 (v : option bool) (c : A -> option bool) (a : A) : bool := if obdec (c a) v then true else false.
Lemma down_filter_length c t sh : length (down_filter df c t sh) = length df.
Proof. unfold down_filter. rewrite map_length, combine_length. unfold over. rewrite over_length. lia. Qed.
Lemma nth_combine {X Y} : forall (l : list X) (m : list Y) i, length l = length m ->
  nth_error (combine l m) i = match nth_error l i, nth_error m i with Some x, Some y => Some (x, y) | _, _ => None end.
Proof.
  induction l as [|x l IH]; intros [|y m] i E; try discriminate.
  - destruct i; reflexivity.
  - destruct i; cbn; [reflexivity|]. apply IH. now injection E.
Qed.
(** The rows of the group [g] that one filter lets through. *)
Lemma down_group c t sh g : group_shuffles sh -> g <> Some false ->
  let m := count (is3 g c) df in
  count (is3 g c) (keep (map is_true3 (down_filter df c t sh)) df) = Z.to_nat (Z.max 0 (Z.min (t m) (Z.of_nat m))).
Proof.
  intros H Hg m.
  set (T := fun v => t (count_occ obdec (map c df) v)).
  pose proof (over_count obdec c sh T df g H) as OC.
  change (isg obdec c g) with (is3 g c) in OC.
  replace (t m) with (T g). 2:{ unfold T. rewrite count_occ_filter. reflexivity. }
  unfold m. rewrite <- OC. unfold count. f_equal. apply keep_ext.
  - rewrite map_length. apply down_filter_length.
  - rewrite map_length, combine_length. unfold over. rewrite over_length. lia.
  - intros i a Ea Pa. unfold down_filter. rewrite !nth_error_map.
    rewrite nth_combine by (unfold over; apply over_length). rewrite Ea.
    destruct (nth_error (over obdec c sh df) i); cbn; [|reflexivity]. f_equal.
    unfold pass, T. cbn. unfold is3 in Pa. destruct (obdec (c a) g) as [Ec|]; [|discriminate].
    destruct (c a) as [[]|]; [|congruence|]; destruct (_ <? _)%Z; reflexivity.
Qed.
(** The rows whose condition is false all pass. *)
Lemma down_false c t sh i a : nth_error df i = Some a -> c a = Some false -> mtrue (down_filter df c t sh) i = true.
Proof.
  intros Ea Ec. unfold mtrue, down_filter. rewrite nth_error_map, nth_combine by (unfold over; apply over_length).
  rewrite Ea. destruct (nth_error (over obdec c sh df) i) eqn:E.
  - cbn. rewrite Ec. destruct (_ <? _)%Z; reflexivity.
  - apply nth_error_None in E. unfold over in E. rewrite over_length in E.
    assert (i < length df) by (apply nth_error_Some; congruence). lia.
Qed.

Lemma down_filters_ok conds sh : forall j fs, down_filters df conds sh j = Ret fs ->
  length fs = length conds /\
  forall i c r, nth_error conds i = Some (c, r) -> exists t, sampler r = Ret t /\
    nth_error fs i = Some (down_filter df c t (sh (j + i))).
Proof.
  induction conds as [|[c r] conds IH]; intros j fs E; cbn in E.
  - injection E as <-. split; [reflexivity|]. intros [|i]; discriminate.
  - destruct (sampler r) as [t|e] eqn:Es; [|discriminate].
    destruct (down_filters df conds sh (S j)) as [fs'|e] eqn:Ef; [|discriminate]. injection E as <-.
    destruct (IH _ _ Ef) as [L K]. split; [cbn; now rewrite L|].
    intros [|i] c' r' Hi.
    + injection Hi as <- <-. exists t. split; [exact Es|]. cbn. now rewrite Nat.add_0_r.
    + destruct (K i c' r' Hi) as (t' & E1 & E2). exists t'. split; [exact E1|]. cbn. rewrite E2. now rewrite Nat.add_succ_r.
Qed.
Lemma down_filters_total conds sh : forall j, (forall c r, In (c, r) conds -> exists t, sampler r = Ret t) ->
  exists fs, down_filters df conds sh j = Ret fs.
Proof.
  induction conds as [|[c r] conds IH]; intros j H; cbn; [eexists; reflexivity|].
  destruct (H c r) as [t ->]; [now left|]. destruct (IH (S j)) as [fs ->]; [intros; eapply H; right; eassumption|].
  eexists; reflexivity.
Qed.

Lemma sampler_valid r : valid_rate r -> exists t, sampler r = Ret t /\
  forall m, small m -> sized r m (Z.to_nat (Z.max 0 (Z.min (t m) (Z.of_nat m)))).
Proof.
  destruct r as [k|v]; unfold valid_rate, sampler, sized.
  - intros H. destruct (Z.leb_spec k 0); [lia|]. eexists. split; [reflexivity|]. intros m _. cbn. lia.
  - intros [F B]. destruct (frac_range_conv v F B) as [-> ->]. cbn [orb]. eexists. split; [reflexivity|]. intros m S.
    assert (RI : ratio_in v) by (split; [exact F|lra]).
    destruct (cutoff_ok m v RI S) as [B1 _].
    replace (Z.max 0 (Z.min (cutoff m v) (Z.of_nat m))) with (cutoff m v) by lia.
    now apply cutoff_share.
Qed.
Lemma sampler_invalid r : invalid_rate r ->
  sampler r = Raise ValueErr.
Proof.
  destruct r as [k|v]; unfold invalid_rate, sampler.
  - intros H. destruct (Z.leb_spec k 0); [reflexivity|lia].
  - intros [F B]. now rewrite (frac_reject v F B).
Qed.
Lemma small_count {T} (p : T -> bool) l : small (length l) -> small (count p l).
Proof.
  unfold small, count. intros H.
  assert (length (filter p l) <= length l) by (clear; induction l as [|a l IH]; cbn; [lia|destruct (p a); cbn; lia]). lia.
Qed.

Lemma downsample_ok conds sh :
  (forall j, group_shuffles (sh j)) -> small (length df) ->
  (forall c r, In (c, r) conds -> valid_rate r) ->
  (forall i j c r c' r' a, nth_error conds i = Some (c, r) -> nth_error conds j = Some (c', r') -> i <> j ->
     In a df -> c a <> Some false -> c' a = Some false) ->
  exists out, downsample df conds sh = Ret out /\ subseq out df /\
    (forall c r g, In (c, r) conds -> g <> Some false -> sized r (count (is3 g c) df) (count (is3 g c) out)) /\
    (forall p, (forall a c r, In a df -> p a = true -> In (c, r) conds -> c a = Some false) -> filter p out = filter p df).
Proof.
  intros Hs Sm Hv Hd.
  destruct (down_filters_total conds sh 0) as [fs Ef].
  { intros c r I. destruct (sampler_valid r (Hv c r I)) as (t & E & _). now exists t. }
  unfold downsample. rewrite Ef. eexists. split; [reflexivity|].
  destruct (down_filters_ok conds sh 0 fs Ef) as [L K].
  assert (Lf : forall f, In f fs -> length f = length df).
  { intros f I. apply In_nth_error in I. destruct I as [i Ei].
    assert (Hi : i < length conds) by (rewrite <- L; apply nth_error_Some; congruence).
    destruct (nth_error conds i) as [[c r]|] eqn:Ec; [|apply nth_error_None in Ec; lia].
    destruct (K i c r Ec) as (t & _ & E2). rewrite Ei in E2. injection E2 as ->. apply down_filter_length. }
  split; [apply keep_subseq|]. split.
  - intros c r g I Hg. apply In_nth_error in I. destruct I as [j Ej].
    destruct (K j c r Ej) as (t & Et & Efj).
    destruct (sampler_valid r (Hv c r (nth_error_In _ _ Ej))) as (t' & Et' & Sz). rewrite Et in Et'. injection Et' as <-.
    assert (E : count (is3 g c) (keep (map is_true3 (and_all (length df) fs)) df)
                = count (is3 g c) (keep (map is_true3 (down_filter df c t (sh (0 + j)))) df)).
    { unfold count. f_equal. apply keep_ext.
      - now apply and_all_length.
      - rewrite map_length. apply down_filter_length.
      - intros i a Ea Pa. assert (Hi : i < length df) by (apply nth_error_Some; congruence).
        rewrite and_all_nth by assumption. rewrite nth_error_map.
        destruct (nth_error (down_filter df c t (sh (0 + j))) i) as [x|] eqn:Ex.
        2:{ apply nth_error_None in Ex. rewrite down_filter_length in Ex. lia. }
        cbn. f_equal.
        assert (M : mtrue (down_filter df c t (sh (0 + j))) i = is_true3 x) by (unfold mtrue; now rewrite Ex).
        rewrite <- M.
        assert (Nf : c a <> Some false) by (unfold is3 in Pa; destruct (obdec (c a) g); congruence).
        destruct (mtrue (down_filter df c t (sh (0 + j))) i) eqn:EM.
        + apply forallb_forall. intros f If. apply In_nth_error in If. destruct If as [j' Ej'].
          destruct (Nat.eq_dec j' j) as [->|NJ].
          * rewrite Ej' in Efj. injection Efj as ->. exact EM.
          * assert (Hj' : j' < length conds) by (rewrite <- L; apply nth_error_Some; congruence).
            destruct (nth_error conds j') as [[c' r']|] eqn:Ec'; [|apply nth_error_None in Ec'; lia].
            destruct (K j' c' r' Ec') as (t2 & _ & E2). rewrite Ej' in E2. injection E2 as ->.
            apply (down_false c' t2 _ i a Ea). apply (Hd j j' c r c' r' a Ej Ec'); [congruence|now apply nth_error_In in Ea|exact Nf].
        + apply not_true_is_false. intros F. rewrite forallb_forall in F.
          rewrite (F _ (nth_error_In _ _ Efj)) in EM. discriminate. }
    rewrite E, down_group by (try apply Hs; exact Hg). apply Sz. now apply small_count.
  - intros p Hp. transitivity (filter p (keep (repeat true (length df)) df)); [|now rewrite keep_all]. apply keep_ext.
    + now apply and_all_length.
    + apply repeat_length.
    + intros i a Ea Pa. assert (Hi : i < length df) by (apply nth_error_Some; congruence).
      rewrite and_all_nth by assumption. rewrite nth_error_repeat by exact Hi. f_equal.
      apply forallb_forall. intros f If. apply In_nth_error in If. destruct If as [j' Ej'].
      assert (Hj' : j' < length conds) by (rewrite <- L; apply nth_error_Some; congruence).
      destruct (nth_error conds j') as [[c' r']|] eqn:Ec'; [|apply nth_error_None in Ec'; lia].
      destruct (K j' c' r' Ec') as (t2 & _ & E2). rewrite Ej' in E2. injection E2 as ->.
      apply (down_false c' t2 _ i a Ea). apply (Hp a c' r'); [now apply nth_error_In in Ea|exact Pa|now apply nth_error_In in Ec'].
Qed.
End Down.

(** * random_cols *)
Lemma combos_subseq {N} : forall k (l s : list N), In s (combos k l) <-> subseq s l /\ length s = k.
Proof.
  induction k as [|k IHk].
  - intros l s. cbn. split.
    + intros [<-|[]]. split; [|reflexivity]. induction l; constructor; auto.
    + intros [_ E]. left. destruct s; [reflexivity|discriminate].
  - induction l as [|a l IHl]; intros s.
    + rewrite combos_nil. split; [intros []|]. intros [H E]. inversion H; subst. discriminate.
    + rewrite combos_cons, in_app_iff, in_map_iff. split.
      * intros [(s' & <- & I)|I].
        -- apply IHk in I. destruct I as [I E]. split; [now apply sub_take|cbn; now rewrite E].
        -- apply IHl in I. destruct I as [I E]. split; [now apply sub_skip|exact E].
      * intros [H E]. inversion H; subst.
        -- right. apply IHl. now split.
        -- left. eexists. split; [reflexivity|]. apply IHk. split; [assumption|]. cbn in E. now injection E.
Qed.
Section RC.
Context {N : Type} (dec : forall x y : N, {x = y} + {x <> y}).
Definition outside (ks all : list N) : list N := filter (fun c => if in_dec dec c ks then false else true) all.
Lemma outside_length ks all : NoDup all -> NoDup ks -> incl ks all -> length (outside ks all) + length ks = length all.
Proof.
  intros Na Nk I.
  assert (P : Permutation all (outside ks all ++ ks)).
  { apply NoDup_Permutation; [exact Na| |].
    - assert (ND : NoDup (outside ks all)) by now apply NoDup_filter.
      assert (D : forall x, In x (outside ks all) -> ~ In x ks).
      { intros x. unfold outside. rewrite filter_In. destruct (in_dec dec x ks); [intros [_ E]; discriminate|tauto]. }
      revert ND D. generalize (outside ks all) as u. clear - Nk. induction u as [|x u IH]; intros ND D; [exact Nk|].
      inversion ND; subst. cbn. constructor.
      + rewrite in_app_iff. intros [H|H]; [contradiction|]. apply (D x); [now left|exact H].
      + apply IH; [assumption|]. intros y Hy. apply D. now right.
    - intros x. rewrite in_app_iff. unfold outside. rewrite filter_In. destruct (in_dec dec x ks); split.
      + intros _. now right.
      + intros _. now apply I.
      + intros H. left. now split.
      + intros [[H _]|H]; [exact H|contradiction]. }
  apply Permutation_length in P. rewrite app_length in P. lia.
Qed.
Definition kept_list (k : option (list N)) : list N := match k with None => [] | Some l => l end.
Lemma outside_nil all : outside [] all = all.
Proof. unfold outside. induction all as [|a all IH]; [reflexivity|]. cbn [filter]. destruct (in_dec dec a []) as [[]|]. now rewrite IH. Qed.
Lemma random_cols_eq draw all k kept : random_cols dec draw all k kept =
  let out := kept_list kept in
  let pool_size := (Z.of_nat (length all) - Z.of_nat (length out))%Z in
  if (pool_size <? Z.of_nat k)%Z then Raise ValueErr
  else match nth_error (combos k (outside out all)) (draw (binom (Z.to_nat pool_size) k)) with
       | Some cols => Ret (out ++ cols)
       | None => Raise TypeErr
       end.
Proof. unfold random_cols. destruct kept as [ks|]; cbn [kept_list]; [reflexivity|]. now rewrite outside_nil. Qed.
Lemma binom_pos n k : k <= n -> 0 < binom n k.
Proof. revert n. induction k as [|k IH]; intros [|n] H; cbn; try lia. specialize (IH n). lia. Qed.
Lemma random_cols_ok draw all k kept : draws draw -> NoDup all -> NoDup (kept_list kept) -> incl (kept_list kept) all ->
  (length all < length (kept_list kept) + k -> random_cols dec draw all k kept = Raise ValueErr) /\
  (length (kept_list kept) + k <= length all -> exists sel, random_cols dec draw all k kept = Ret (kept_list kept ++ sel) /\
     length sel = k /\ subseq sel all /\ (forall x, In x sel -> ~ In x (kept_list kept))).
Proof.
  intros Hd Na Nk I. rewrite random_cols_eq. cbv zeta. set (ks := kept_list kept) in *.
  pose proof (outside_length ks all Na Nk I) as OL.
  split; intros H.
  - destruct (Z.ltb_spec (Z.of_nat (length all) - Z.of_nat (length ks)) (Z.of_nat k)); [reflexivity|lia].
  - destruct (Z.ltb_spec (Z.of_nat (length all) - Z.of_nat (length ks)) (Z.of_nat k)); [lia|].
    replace (Z.to_nat (Z.of_nat (length all) - Z.of_nat (length ks))) with (length (outside ks all)) by lia.
    assert (D : draw (binom (length (outside ks all)) k) < length (combos k (outside ks all))).
    { rewrite combos_length. apply Hd. apply binom_pos. lia. }
    destruct (nth_error (combos k (outside ks all)) _) as [sel|] eqn:E; [|apply nth_error_None in E; lia].
    exists sel. split; [reflexivity|]. apply nth_error_In in E. apply combos_subseq in E. destruct E as [Es El].
    split; [exact El|]. split.
    + clear - Es. unfold outside in Es. revert sel Es. induction all as [|a all IH]; intros sel Es; cbn in Es; [exact Es|].
      destruct (in_dec dec a ks); [apply sub_skip, IH, Es|].
      inversion Es; subst; [apply sub_skip|apply sub_take]; now apply IH.
    + intros x Hx. assert (In x (outside ks all)).
      { clear - Es Hx. induction Es; cbn in *; [contradiction|right; auto|]. destruct Hx; [now left|right; auto]. }
      unfold outside in H1. rewrite filter_In in H1. destruct (in_dec dec x ks); [destruct H1; discriminate|assumption].
Qed.
Lemma random_cols_every all k kept sel : NoDup all -> NoDup (kept_list kept) -> incl (kept_list kept) all ->
  subseq sel all -> length sel = k -> (forall x, In x sel -> ~ In x (kept_list kept)) ->
  exists draw, draws draw /\ random_cols dec draw all k kept = Ret (kept_list kept ++ sel).
Proof.
  intros Na Nk I Hs Hl Hx. set (ks := kept_list kept) in *.
  pose proof (outside_length ks all Na Nk I) as OL.
  assert (Hs' : subseq sel (outside ks all)).
  { clear - Hs Hx. unfold outside. induction Hs as [|a s l H IH|a s l H IH]; cbn.
    - constructor.
    - destruct (in_dec dec a ks); [now apply IH|apply sub_skip; now apply IH].
    - destruct (in_dec dec a ks) as [Ia|]; [destruct (Hx a (or_introl eq_refl) Ia)|].
      apply sub_take, IH. intros x Hin. apply Hx. now right. }
  assert (In sel (combos k (outside ks all))) by (apply combos_subseq; now split).
  apply In_nth_error in H. destruct H as [i Ei].
  assert (Hi : i < binom (length (outside ks all)) k) by (rewrite <- combos_length; apply nth_error_Some; congruence).
  exists (fun m => if m =? binom (length (outside ks all)) k then i else 0). split.
  - intros m Hm. destruct (Nat.eqb_spec m (binom (length (outside ks all)) k)); lia.
  - rewrite random_cols_eq. cbv zeta. fold ks.
    assert (k <= length (outside ks all)).
    { destruct (le_lt_dec k (length (outside ks all))); [assumption|]. rewrite binom_zero in Hi by assumption. lia. }
    destruct (Z.ltb_spec (Z.of_nat (length all) - Z.of_nat (length ks)) (Z.of_nat k)); [lia|].
    replace (Z.to_nat (Z.of_nat (length all) - Z.of_nat (length ks))) with (length (outside ks all)) by lia.
    rewrite Nat.eqb_refl, Ei. reflexivity.
Qed.
End RC.

(** * split_by_ratio with one ratio *)
Lemma split_single_ok {A} sh (df : list A) v : shuffles sh -> small (length df) -> is_finite v = true -> (0 < B2R v < 1)%R ->
  let n := length df in let k := Z.to_nat (cutoff n v) in
  share n k (B2R v) /\
  (0 < k < n -> exists train test, split_single sh df v = Ret [train; test] /\ merge train test df /\ length train = k) /\
  (k = 0 \/ k = n -> split_single sh df v = Raise KeyErr).
Proof.
  intros Hs Sm F B n k.
  assert (RI : ratio_in v) by (split; [exact F|lra]).
  destruct (cutoff_ok n v RI Sm) as [CB _].
  split; [now apply cutoff_share|].
  set (tt := below (sh (length df)) (cutoff (length df) v)).
  assert (Lt : length tt = length df) by (unfold tt; rewrite below_length; now apply shuffle_length).
  assert (M : merge (keep tt df) (keep (map negb tt) df) df) by now apply keep_merge.
  assert (LK : length (keep tt df) = k).
  { rewrite keep_length by exact Lt. unfold tt. rewrite (count_below _ n) by apply Hs. unfold k, n in *. lia. }
  pose proof (merge_length _ _ _ M) as ML.
  assert (E : split_single sh df v = match keep tt df, keep (map negb tt) df with [], _ | _, [] => Raise KeyErr | _, _ => Ret [keep tt df; keep (map negb tt) df] end).
  { unfold split_single. destruct (frac_range_conv v F B) as [-> ->]. cbn [orb]. reflexivity. }
  fold n in ML. split; intros H.
  - exists (keep tt df), (keep (map negb tt) df). split; [|now split]. rewrite E.
    destruct (keep tt df) eqn:E1; [cbn [length] in LK; lia|].
    destruct (keep (map negb tt) df) eqn:E2; [cbn [length] in LK, ML; lia|]. reflexivity.
  - rewrite E. destruct H as [H|H].
    + destruct (keep tt df) eqn:E1; [reflexivity|]. cbn [length] in LK. lia.
    + destruct (keep tt df) eqn:E1; [reflexivity|]. destruct (keep (map negb tt) df) eqn:E2; [reflexivity|]. cbn [length] in LK, ML. lia.
Qed.

(** * split_by_ratio with several ratios *)
Definition keys_sorted {A} (l : list (nat * A)) : Prop := StronglySorted (fun p q => fst p <= fst q) l.
Lemma insert_perm {A} (p : nat * A) l : Permutation (insert_row p l) (p :: l).
Proof.
  induction l as [|q l IH]; cbn; [reflexivity|]. destruct (fst p <=? fst q); [reflexivity|].
  rewrite IH. apply perm_swap.
Qed.
Lemma insert_sorted {A} (p : nat * A) l : keys_sorted l -> keys_sorted (insert_row p l).
Proof.
  unfold keys_sorted. induction 1 as [|q l H IH F]; cbn; [repeat constructor|].
  destruct (Nat.leb_spec (fst p) (fst q)).
  - constructor; [now constructor|]. constructor; [assumption|]. eapply Forall_impl; [|exact F]. cbn. intros; lia.
  - constructor; [exact IH|]. eapply Forall_perm; [apply Permutation_sym, insert_perm|]. constructor; [lia|exact F].
Qed.
Lemma sort_rows_perm {A} (l : list (nat * A)) : Permutation (sort_rows l) l.
Proof. induction l as [|p l IH]; cbn; [reflexivity|]. rewrite insert_perm. now apply perm_skip. Qed.
Lemma sort_rows_sorted {A} (l : list (nat * A)) : keys_sorted (sort_rows l).
Proof. induction l as [|p l IH]; cbn; [constructor|]. now apply insert_sorted. Qed.
Lemma sorted_seq : forall l b, StronglySorted le l -> Permutation l (seq b (length l)) -> l = seq b (length l).
Proof.
  induction l as [|x l IH]; intros b S P; [reflexivity|].
  inversion S; subst. cbn [length seq] in *.
  assert (x = b).
  { assert (I1 : In b (x :: l)) by (eapply Permutation_in; [apply Permutation_sym, P|now left]).
    assert (I2 : In x (b :: seq (Datatypes.S b) (length l))) by (eapply Permutation_in; [exact P|now left]).
    destruct I1 as [->|I1]; [reflexivity|]. destruct I2 as [->|I2]; [reflexivity|].
    rewrite Forall_forall in H2. specialize (H2 _ I1). apply in_seq in I2. lia. }
  subst. f_equal. apply IH; [assumption|]. eapply Permutation_cons_inv. exact P.
Qed.
Lemma map_fst_combine {X Y} : forall (l : list X) (m : list Y), length l = length m -> map fst (combine l m) = l.
Proof. induction l as [|x l IH]; intros [|y m] E; try discriminate; cbn; [reflexivity|]. f_equal. apply IH. now injection E. Qed.
Lemma map_snd_combine {X Y} : forall (l : list X) (m : list Y), length l = length m -> map snd (combine l m) = m.
Proof. induction l as [|x l IH]; intros [|y m] E; try discriminate; cbn; [reflexivity|]. f_equal. apply IH. now injection E. Qed.
Lemma sort_rows_place {A} sh (df : list A) : Permutation sh (seq 0 (length df)) ->
  let rows := map snd (sort_rows (combine sh df)) in
  Permutation rows df /\ forall i k a, nth_error sh i = Some k -> nth_error df i = Some a -> nth_error rows k = Some a.
Proof.
  intros H rows. pose proof (shuffle_length _ _ H) as L.
  pose proof (sort_rows_perm (combine sh df)) as P. pose proof (sort_rows_sorted (combine sh df)) as S.
  set (s := sort_rows (combine sh df)) in *.
  assert (K : map fst s = seq 0 (length df)).
  { assert (E : length (map fst s) = length df).
    { rewrite map_length, (Permutation_length P), combine_length. lia. }
    rewrite <- E. apply sorted_seq.
    - clear - S. unfold keys_sorted in S. induction S as [|p l S IH F]; cbn; constructor; [exact IH|].
      apply Forall_map. exact F.
    - rewrite E. rewrite (Permutation_map fst P), map_fst_combine by lia. exact H. }
  split.
  - unfold rows. rewrite (Permutation_map snd P), map_snd_combine by lia. reflexivity.
  - intros i k a Ek Ea.
    assert (I : In (k, a) s).
    { eapply Permutation_in; [apply Permutation_sym, P|]. apply nth_error_In with i. rewrite nth_combine by lia. now rewrite Ek, Ea. }
    apply In_nth_error in I. destruct I as [j Ej].
    assert (Ej2 : nth_error (map fst s) j = Some k) by (rewrite nth_error_map, Ej; reflexivity).
    assert (j = k).
    { rewrite K in Ej2. assert (Hj : j < length (seq 0 (length df))) by (apply nth_error_Some; congruence).
      rewrite seq_length in Hj. apply (nth_error_nth _ _ 0) in Ej2. rewrite seq_nth in Ej2 by exact Hj. lia. }
    subst j. unfold rows. rewrite nth_error_map, Ej. reflexivity.
Qed.

Definition lens (n : nat) (ratios : list f64) : list nat := map (fun v => Z.to_nat (cutoff n v)) ratios.
Lemma skipn_add {A} : forall a b (l : list A), skipn b (skipn a l) = skipn (a + b) l.
Proof. induction a as [|a IH]; intros b l; [reflexivity|]. destruct l; [now rewrite skipn_nil|]. cbn. apply IH. Qed.
Lemma lens_cons n v l : list_sum (lens n (v :: l)) = Z.to_nat (cutoff n v) + list_sum (lens n l).
Proof. reflexivity. Qed.
Lemma slices_ok {A} n (rows : list A) : forall ratios start, start + list_sum (lens n ratios) <= length rows ->
  exists rest, skipn start rows = concat (slices n rows start ratios) ++ rest /\
    map (@length A) (slices n rows start ratios) = lens n ratios /\
    length rest + (start + list_sum (lens n ratios)) = length rows.
Proof.
  induction ratios as [|v ratios IH]; intros start H.
  - cbn in *. exists (skipn start rows). split; [reflexivity|]. split; [reflexivity|]. rewrite skipn_length. lia.
  - rewrite lens_cons in H |- *. cbn [slices concat map lens]. cbv zeta. fold (lens n ratios).
    destruct (IH (start + Z.to_nat (cutoff n v))) as (rest & E1 & E2 & E3); [lia|].
    exists rest. split; [|split].
    + cbn [concat]. rewrite <- app_assoc, <- E1. unfold slice.
      rewrite <- (firstn_skipn (Z.to_nat (cutoff n v)) (skipn start rows)) at 1. now rewrite skipn_add.
    + cbn [map]. rewrite E2. f_equal. unfold slice. rewrite firstn_length, skipn_length. lia.
    + lia.
Qed.

(** Sums of ratios. *)
Lemma rsum_pos l : Forall ratio_in l -> (0 <= rsum l)%R.
Proof. induction 1 as [|v l [_ B] _ IH]; cbn; lra. Qed.
Lemma lens_sum n l : small n -> Forall ratio_in l ->
  (INR n * rsum l - INR (length l) <= INR (list_sum (lens n l)) <= INR n * rsum l + INR (length l) * / 1048576)%R /\
  (l <> [] -> INR n * rsum l - INR (length l) < INR (list_sum (lens n l)))%R.
Proof.
  intros S H. induction H as [|v l Hv H IH].
  - cbn. split; [lra|congruence].
  - destruct (cutoff_share n v Hv S) as [_ B]. destruct IH as [IH1 _].
    rewrite lens_cons. cbn [length rsum]. rewrite plus_INR, S_INR. split; [|intros _]; lra.
Qed.

Lemma add_step (acc v : f64) (i : Z) : is_finite acc = true -> (0 <= B2R acc <= IZR i)%R -> (0 <= i < 2 ^ 52)%Z -> ratio_in v ->
  let a := nadd f64_ops acc v in
  is_finite a = true /\ (B2R acc <= B2R a <= IZR (i + 1))%R /\ B2R a = rnd64 (B2R acc + B2R v).
Proof.
  intros Fa Ba Hi [Fv Bv] a.
  assert (P : (IZR i + 1 = IZR (i + 1))%R) by (rewrite plus_IZR; lra).
  assert (Hb : (Rabs (B2R acc + B2R v) <= bpow radix2 53)%R).
  { rewrite Rabs_pos_eq by lra. change (bpow radix2 53) with (IZR (2 ^ 53)).
    apply Rle_trans with (IZR (i + 1)); [lra|]. apply IZR_le. lia. }
  destruct (fin_add acc v _ _ 53 ltac:(lia) (conj Fa eq_refl) (conj Fv eq_refl) Hb) as [F E].
  split; [exact F|]. fold a in E. split; [|exact E]. rewrite E. split.
  - rewrite <- (round_generic radix2 fexp64 ZnearestE (B2R acc)) at 1 by (apply (generic_format_B2R 53 1024)).
    apply round_le; try typeclasses eauto. lra.
  - rewrite <- (rnd64_int (i + 1)) by lia. apply round_le; try typeclasses eauto. lra.
Qed.
Lemma fold_finite : forall l acc i, Forall ratio_in l -> is_finite acc = true -> (0 <= B2R acc <= IZR i)%R -> (0 <= i)%Z ->
  (i + Z.of_nat (length l) <= 2 ^ 52)%Z ->
  is_finite (fold_left (nadd f64_ops) l acc) = true /\ (B2R acc <= B2R (fold_left (nadd f64_ops) l acc))%R.
Proof.
  induction l as [|v l IH]; intros acc i H Fa Ba Hi Hl; [split; [exact Fa|apply Rle_refl]|].
  inversion H; subst. cbn [length] in Hl.
  destruct (add_step acc v i Fa Ba ltac:(lia) H2) as (F & B & _).
  destruct (IH (nadd f64_ops acc v) (i + 1)%Z H3 F ltac:(lra) ltac:(lia) ltac:(lia)) as [F' B'].
  split; [exact F'|]. cbn [fold_left]. lra.
Qed.
Lemma fold_error : forall l acc i, Forall ratio_in l -> is_finite acc = true -> (0 <= B2R acc <= IZR i)%R -> (0 <= i)%Z ->
  (i + Z.of_nat (length l) <= 2 ^ 52)%Z -> (B2R (fold_left (nadd f64_ops) l acc) <= 1)%R ->
  (Rabs (B2R (fold_left (nadd f64_ops) l acc) - (B2R acc + rsum l)) <= INR (length l) * bpow radix2 (-53))%R.
Proof.
  induction l as [|v l IH]; intros acc i H Fa Ba Hi Hl Ht.
  - cbn. rewrite Rplus_0_r, Rminus_eq_0, Rabs_R0. lra.
  - inversion H; subst. cbn [length] in Hl.
    destruct (add_step acc v i Fa Ba ltac:(lia) H2) as (F & B & E).
    pose proof (fold_finite l (nadd f64_ops acc v) (i + 1)%Z H3 F ltac:(lra) ltac:(lia) ltac:(lia)) as [_ M].
    cbn [fold_left] in Ht. specialize (IH (nadd f64_ops acc v) (i + 1)%Z H3 F ltac:(lra) ltac:(lia) ltac:(lia) Ht).
    assert (ER : (Rabs (B2R (nadd f64_ops acc v) - (B2R acc + B2R v)) <= bpow radix2 (-53))%R).
    { rewrite E. eapply Rle_trans; [apply error_le_half_ulp_round; typeclasses eauto|]. rewrite <- E.
      assert (U : (ulp radix2 fexp64 (B2R (nadd f64_ops acc v)) <= bpow radix2 (-52))%R).
      { eapply Rle_trans; [apply (ulp_le radix2 fexp64 _ 1)|].
        - rewrite Rabs_R1, Rabs_pos_eq by lra. lra.
        - change 1%R with (bpow radix2 0). rewrite ulp_bpow. apply bpow_le. unfold SpecFloat.fexp, SpecFloat.emin. lia. }
      change (-52)%Z with (-53 + 1)%Z in U. rewrite bpow_plus in U. change (bpow radix2 1) with 2%R in U. lra. }
    cbn [fold_left length rsum]. rewrite S_INR.
    apply Rabs_le_inv in IH, ER. apply Rabs_le. lra.
Qed.
Lemma py_sum_one l : Forall ratio_in l -> (Z.of_nat (length l) <= 2 ^ 19)%Z ->
  nle f64_ops (py_sum l) (fi 1) = true -> nle f64_ops (fi 1) (py_sum l) = true ->
  (Rabs (rsum l - 1) <= INR (length l) * bpow radix2 (-53))%R.
Proof.
  intros H Hl L1 L2. destruct f1 as [F1 E1].
  assert (Z0 : is_finite (nzero f64_ops) = true /\ (0 <= B2R (nzero f64_ops) <= IZR 0)%R) by (cbn; split; [reflexivity|lra]).
  destruct (fold_finite l (nzero f64_ops) 0%Z H (proj1 Z0) (proj2 Z0) ltac:(lia) ltac:(lia)) as [F _].
  fold (py_sum l) in F. rewrite fle_fin in L1, L2 by assumption. rewrite E1 in L1, L2.
  destruct (Rle_bool_spec (B2R (py_sum l)) 1); [|discriminate]. destruct (Rle_bool_spec 1 (B2R (py_sum l))); [|discriminate].
  pose proof (fold_error l (nzero f64_ops) 0%Z H (proj1 Z0) (proj2 Z0) ltac:(lia) ltac:(lia) H0) as ER.
  fold (py_sum l) in ER. change (B2R (nzero f64_ops)) with 0%R in ER.
  apply Rabs_le_inv in ER. apply Rabs_le. lra.
Qed.

Lemma split_list_ok {A} sum sh (df : list A) ratios : shuffles sh -> small (length df) -> Forall ratio_in ratios ->
  2 <= length ratios -> (Z.of_nat (length ratios) <= 2 ^ 19)%Z ->
  nle f64_ops (sum ratios) (fi 1) = true -> nle f64_ops (fi 1) (sum ratios) = true ->
  (Rabs (rsum ratios - 1) <= INR (length ratios) * bpow radix2 (-53))%R ->
  let n := length df in
  exists pieces rest order, split_list sum sh df ratios = Ret pieces /\
    order = concat pieces ++ rest /\ Permutation order df /\
    (forall i k a, nth_error (sh n) i = Some k -> nth_error df i = Some a -> nth_error order k = Some a) /\
    Forall2 (fun v p => share n (length p) (B2R v)) ratios pieces /\
    length rest <= length ratios /\ (rsum ratios = 1%R -> length rest < length ratios).
Proof.
  intros Hs Sm Hr H2 H19 L1 L2 Hsum n.
  destruct (sort_rows_place (sh n) df (Hs n)) as [P K].
  set (rows := map snd (sort_rows (combine (sh n) df))) in *.
  assert (Ln : length rows = n) by (apply Permutation_length; exact P).
  assert (NE : ratios <> []) by (intros ->; cbn in H2; lia).
  destruct (lens_sum n ratios Sm Hr) as [LB LS]. specialize (LS NE).
  assert (N0 : (0 <= INR n)%R) by apply pos_INR.
  assert (Nb : (INR n <= bpow radix2 32)%R).
  { rewrite INR_IZR_INZ. change (bpow radix2 32) with (IZR (2 ^ 32)). apply IZR_le. exact Sm. }
  assert (Kb : (INR (length ratios) <= bpow radix2 19)%R).
  { rewrite INR_IZR_INZ. change (bpow radix2 19) with (IZR (2 ^ 19)). apply IZR_le. exact H19. }
  assert (K0 : (0 <= INR (length ratios))%R) by apply pos_INR.
  assert (DEV : (INR n * Rabs (rsum ratios - 1) <= / 4)%R).
  { apply Rle_trans with (bpow radix2 32 * (bpow radix2 19 * bpow radix2 (-53)))%R.
    - apply Rmult_le_compat; [exact N0|apply Rabs_pos|exact Nb|]. eapply Rle_trans; [exact Hsum|].
      apply Rmult_le_compat_r; [apply bpow_ge_0|exact Kb].
    - rewrite <- !bpow_plus. change (bpow radix2 (32 + (19 + -53))) with (/ IZR (Z.pow_pos 2 2))%R.
      change (Z.pow_pos 2 2) with 4%Z. lra. }
  assert (DEV2 : (- / 4 <= INR n * rsum ratios - INR n <= / 4)%R).
  { assert (E : (INR n * rsum ratios - INR n = INR n * (rsum ratios - 1))%R) by ring. rewrite E.
    apply Rabs_le_inv. rewrite Rabs_mult, (Rabs_pos_eq (INR n)) by exact N0. exact DEV. }
  assert (KE : (INR (length ratios) * / 1048576 <= / 2)%R).
  { change (bpow radix2 19) with 524288%R in Kb. lra. }
  assert (Tot : list_sum (lens n ratios) <= n).
  { apply INR_le. apply Rnot_lt_le. intros C. apply INR_lt in C. apply (le_INR (S n)) in C. rewrite S_INR in C. lra. }
  destruct (slices_ok n rows ratios 0) as (rest & E1 & E2 & E3); [lia|].
  exists (slices n rows 0 ratios), rest, rows. split; [|split; [|split; [|split; [|split; [|split]]]]].
  - unfold split_list. destruct ratios as [|r [|r' ratios]]; cbn in H2; try lia.
    rewrite L1, L2. cbn [andb negb]. fold n rows. now rewrite Ln.
  - exact E1.
  - exact P.
  - exact K.
  - clear - E2 Hr Sm. unfold lens in E2. revert E2. generalize (slices n rows 0 ratios) as ps. fold n in Sm. clearbody n.
    induction Hr as [|v l Hv Hr IH]; intros [|p ps] E; try discriminate; [constructor|].
    cbn in E. injection E as E E'. constructor; [|now apply IH]. rewrite E. now apply cutoff_share.
  - apply INR_le. apply Rnot_lt_le. intros C. apply INR_lt in C. apply (le_INR (S (length ratios))) in C. rewrite S_INR in C.
    apply (f_equal INR) in E3. rewrite !plus_INR in E3. rewrite Ln in E3. cbn [INR] in E3. lra.
  - intros ES. apply INR_lt. apply (f_equal INR) in E3. rewrite !plus_INR in E3. rewrite Ln in E3. cbn [INR] in E3.
    rewrite ES in LS. lra.
Qed.

(** Queries under an arbitrary distance function (SIMD code, cosine, haversine, ...): they terminate
    without panic and never report a row that is not stored or is out of range. *)
From Coq Require Import Bool List Arith Lia Permutation Sorted.
From Verif Require Import Num PermTac KdModel KdSpec KdProofs.
Import ListNotations.

Section P.
Context (N : NumOps) (laws : NumLaws N) (A : Type).
Notation T := (carrier N).
Notation leaf := (leaf N A).
Notation kdt := (kdt N A).
Notation nle := (nle N). Notation nlt := (nlt N). Notation nnan := (nnan N).
Context (dim : nat) (d : DIST N) (q : list T).
Hypothesis Lq : length q = dim.
Notation DA l := (dist N d (row_vec l) q).

Lemma box_some b : bwf N dim b -> exists db, closest_dist_to_box N b q dim d = Some db.
Proof.
  intros [L _]. unfold closest_dist_to_box.
  destruct (sides_some N dim b L q 0) as (ss & ->); [lia|]. eauto.
Qed.

Lemma descend_any keep : forall t pending, twf N A dim t ->
  exists data pushes dropped,
    descend N A dim d q keep t pending = Some (data, pushes ++ pending) /\
    Permutation (elems N A t) (data ++ selems N A pushes ++ dropped) /\
    Forall (fun e => twf N A dim (snd e)) pushes /\ ssizes N A pushes < size N A t.
Proof.
  induction t as [b data|ax sv b lt IHl rt IHr]; intros pending W.
  - exists data, [], []. simpl. rewrite app_nil_r. repeat split; auto.
  - simpl in W. destruct W as (Wb & Wc & Hax & Wl & Wr). simpl.
    destruct (nth_error_ex q ax) as (v & ->); [lia|].
    assert (K : forall near far, (forall pending, twf N A dim near ->
        exists data pushes dropped,
          descend N A dim d q keep near pending = Some (data, pushes ++ pending) /\
          Permutation (elems N A near) (data ++ selems N A pushes ++ dropped) /\
          Forall (fun e => twf N A dim (snd e)) pushes /\ ssizes N A pushes < size N A near) ->
        twf N A dim near -> twf N A dim far ->
        exists data pushes dropped,
          match closest_dist_to_box N (bounds_of N A far) q dim d with
          | None => None
          | Some db => descend N A dim d q keep near (if keep db then (db, far) :: pending else pending)
          end = Some (data, pushes ++ pending) /\
          Permutation (elems N A near ++ elems N A far) (data ++ selems N A pushes ++ dropped) /\
          Forall (fun e => twf N A dim (snd e)) pushes /\ ssizes N A pushes < S (size N A near + size N A far)).
    { intros near far IH Wn Wf.
      destruct (box_some (bounds_of N A far) (twf_bwf _ _ _ _ Wf)) as (db & ->).
      destruct (keep db).
      - destruct (IH ((db, far) :: pending) Wn) as (data & pushes & dropped & Ed & P & Fo & Sz).
        exists data, (pushes ++ [(db, far)]), dropped. rewrite Ed. split; [rewrite <- app_assoc; reflexivity|].
        split; [|split].
        + rewrite selems_app. simpl. rewrite app_nil_r, P, <- !app_assoc.
          apply Permutation_app_head, Permutation_app_head, Permutation_app_comm.
        + apply Forall_app. auto.
        + rewrite ssizes_app. simpl. lia.
      - destruct (IH pending Wn) as (data & pushes & dropped & Ed & P & Fo & Sz).
        exists data, pushes, (dropped ++ elems N A far). rewrite Ed. split; [reflexivity|].
        split; [|split].
        + rewrite P, <- !app_assoc. reflexivity.
        + exact Fo.
        + lia. }
    destruct (nlt v sv).
    + exact (K lt rt IHl Wl Wr).
    + destruct (K rt lt IHr Wr Wl) as (data & pushes & dropped & E & P & R1 & R2).
      exists data, pushes, dropped. split; [exact E|]. split; [|split]; auto; [|lia].
      rewrite Permutation_app_comm. exact P.
Qed.

Lemma update_nb_within_any r data nbs :
  update_nb_within N A d q r data nbs = nbs ++ map (mkNB N A d q) (filter (fun l => nle (DA l) r) data).
Proof.
  unfold update_nb_within. revert nbs. induction data as [|l data IH]; intros nbs; simpl.
  - now rewrite app_nil_r.
  - rewrite IH. destruct (nle (DA l) r); simpl; [rewrite <- app_assoc|]; reflexivity.
Qed.

Lemma filter_split {X} (f : X -> bool) l : Permutation l (filter f l ++ filter (fun x => negb (f x)) l).
Proof.
  induction l as [|x l IH]; simpl; [constructor|]. destruct (f x); simpl.
  - now constructor.
  - rewrite <- Permutation_middle. now constructor.
Qed.

Lemma within_loop_any r : forall fuel pending nbs, ssizes N A pending <= fuel ->
  Forall (fun e => twf N A dim (snd e)) pending ->
  exists hit rest, within_loop N A fuel dim d q r pending nbs = Some (nbs ++ map (mkNB N A d q) hit) /\
    count_within_loop N A fuel dim d q r pending (length nbs) = Some (length nbs + length hit) /\
    Permutation (selems N A pending) (hit ++ rest) /\ Forall (fun l => nle (DA l) r = true) hit.
Proof.
  induction fuel as [|fuel IH]; intros pending nbs Hs F.
  - destruct pending as [|[db t] rest].
    + exists [], []. simpl. rewrite app_nil_r, Nat.add_0_r. auto.
    + simpl in Hs. pose proof (size_pos N A t). lia.
  - destruct pending as [|[db t] rest].
    { exists [], []. simpl. rewrite app_nil_r, Nat.add_0_r. auto. }
    apply Forall_cons_iff in F. destruct F as [Wt F]. simpl in Wt, Hs. simpl.
    destruct (nlt r db).
    + destruct (IH rest nbs) as (hit & out & E & Ec & P & H); [pose proof (size_pos N A t); lia|exact F|].
      exists hit, (out ++ elems N A t). rewrite E, Nat.add_0_r, Ec. repeat split; auto.
      fold (selems N A rest). rewrite P. solve_perm.
    + destruct (descend_any (fun x => nle x r) t rest Wt) as (data & pushes & dropped & E & P & Fo & Sz).
      rewrite E, update_nb_within_any.
      set (hit0 := filter (fun l => nle (DA l) r) data).
      assert (CE : fold_left (fun acc l => if nle (DA l) r then S acc else acc) data 0 = length hit0).
      { unfold hit0. clear. enough (forall a, fold_left (fun acc l => if nle (DA l) r then S acc else acc) data a
          = a + length (filter (fun l => nle (DA l) r) data)) as ->; [reflexivity|].
        induction data as [|l data IH]; intros a; simpl; [lia|]. rewrite IH. destruct (nle (DA l) r); simpl; lia. }
      rewrite CE.
      destruct (IH (pushes ++ rest) (nbs ++ map (mkNB N A d q) hit0)) as (hit & out & E2 & Ec & P2 & H2).
      { rewrite ssizes_app. lia. }
      { apply Forall_app. auto. }
      rewrite app_length, map_length in Ec.
      exists (hit0 ++ hit), (out ++ filter (fun l => negb (nle (DA l) r)) data ++ dropped).
      split; [rewrite E2, map_app, app_assoc; reflexivity|].
      split; [rewrite Ec, app_length; f_equal; lia|]. split.
      * fold (selems N A rest). rewrite P.
        rewrite selems_app in P2.
        transitivity ((data ++ dropped) ++ (selems N A pushes ++ selems N A rest)); [solve_perm|].
        rewrite P2. pose proof (filter_split (fun l => nle (DA l) r) data) as FS. fold hit0 in FS.
        set (f := filter (fun x => negb _) data) in *. clearbody f. rewrite FS. solve_perm.
      * apply Forall_app. split; [|exact H2]. unfold hit0. apply Forall_forall. intros l Hl.
        apply filter_In in Hl. tauto.
Qed.

Section KNN.
Context (k : nat) (maxb eps : T).
Hypothesis Hk : 0 < k.

Definition Kany (seen ch : list leaf) : Prop :=
  StronglySorted (fun a b => nle (DA a) (DA b) = true) ch /\ length ch <= k /\
  Forall (fun c => nle (DA c) maxb = true) ch /\ exists rest, Permutation seen (ch ++ rest).

Lemma any_sorted_split di ch : StronglySorted (fun a b => nle (DA a) (DA b) = true) ch ->
  let idx := pp_prefix (fun nb => nle (nb_dist nb) di) (map (mkNB N A d q) ch) in
  Forall (fun c => nle (DA c) di = true) (firstn idx ch) /\
  (nnan di = false -> Forall (fun c => nnan (DA c) = false) ch ->
   Forall (fun c => nle di (DA c) = true) (skipn idx ch)).
Proof.
  intros S. induction S as [|c ch S IH F]; simpl; [split; constructor|].
  destruct (nle (DA c) di) eqn:E; simpl.
  - destruct IH as [I1 I2]. split; [constructor; assumption|].
    intros Hn Fn. apply Forall_cons_iff in Fn. apply I2; tauto.
  - split; [constructor|]. intros Hn Fn. apply Forall_cons_iff in Fn. destruct Fn as [Nc Fn].
    assert (L : nle di (DA c) = true).
    { destruct (le_total N laws di (DA c) Hn Nc); [assumption|congruence]. }
    constructor; [exact L|]. eapply Forall_impl; [|exact F].
    intros x Hx. exact (le_trans N laws _ _ _ L Hx).
Qed.

Lemma topk_any seen ch cm l : Kany seen ch ->
  exists ch' cm', topk_step N A d k q maxb (map (mkNB N A d q) ch, cm) l = (map (mkNB N A d q) ch', cm') /\
    Kany (l :: seen) ch'.
Proof.
  intros (SO & Len & Mx & rest & P). unfold topk_step. rewrite map_length.
  destruct (nle (DA l) maxb && (nlt (DA l) cm || (length ch <? k))) eqn:Cond.
  - apply andb_prop in Cond. destruct Cond as [C1 _].
    rewrite <- map_insert_at. set (idx := pp_prefix _ _). set (ch1 := insert_at idx l ch).
    assert (P1 : Permutation ch1 (l :: ch)) by apply insert_at_perm.
    assert (S1 : StronglySorted (fun a b => nle (DA a) (DA b) = true) ch1).
    { destruct (any_sorted_split (DA l) ch SO) as [H1 H2]. fold idx in H1, H2.
      specialize (H2 (le_nan_l N laws _ _ C1)).
      assert (FN : Forall (fun c => nnan (DA c) = false) ch).
      { eapply Forall_impl; [|exact Mx]. intros c Hc. exact (le_nan_l N laws _ _ Hc). }
      specialize (H2 FN). unfold ch1, insert_at.
      rewrite <- (firstn_skipn idx ch) in SO. apply SS_app in SO. destruct SO as (S1 & S2 & S3).
      apply SS_app. split; [exact S1|]. split; [constructor; assumption|].
      rewrite Forall_forall in *. intros a Ha. constructor; [now apply H1|now apply S3]. }
    assert (M1 : Forall (fun c => nle (DA c) maxb = true) ch1).
    { eapply Forall_perm; [symmetry; exact P1|]. constructor; assumption. }
    pose proof (Permutation_length P1) as L1. simpl in L1.
    rewrite map_length. destruct (Nat.ltb_spec k (length ch1)) as [Hpop|Hno].
    + rewrite <- map_removelast.
      destruct (@exists_last _ ch1) as (ch' & z & Ez); [intros Hnil; rewrite Hnil in L1; discriminate|].
      rewrite Ez, removelast_last. eexists ch', _. split; [reflexivity|].
      rewrite Ez in *. apply SS_app in S1. rewrite app_length in L1. simpl in L1.
      apply Forall_app in M1. split; [tauto|]. split; [lia|]. split; [tauto|].
      exists (z :: rest). rewrite P. change (l :: ch ++ rest) with ((l :: ch) ++ rest).
      rewrite <- P1, <- app_assoc. reflexivity.
    + eexists ch1, _. split; [reflexivity|]. split; [exact S1|]. split; [lia|]. split; [exact M1|].
      exists rest. rewrite P. change (l :: ch ++ rest) with ((l :: ch) ++ rest). rewrite <- P1. reflexivity.
  - exists ch, cm. split; [reflexivity|]. split; [exact SO|]. split; [exact Len|]. split; [exact Mx|].
    exists (l :: rest). rewrite P. apply Permutation_middle.
Qed.

Lemma update_any : forall data seen ch cm, Kany seen ch ->
  exists ch', update_top_k N A d k q cm maxb data (map (mkNB N A d q) ch) = map (mkNB N A d q) ch' /\
    Kany (data ++ seen) ch'.
Proof.
  unfold update_top_k. induction data as [|l data IH]; intros seen ch cm K.
  - exists ch. auto.
  - cbn [fold_left]. destruct (topk_any seen ch cm l K) as (ch1 & cm1 & E & K1). rewrite E.
    destruct (IH (l :: seen) ch1 cm1 K1) as (ch2 & E2 & A1 & A2 & A3 & rest & P).
    exists ch2. split; [exact E2|]. repeat split; try assumption. exists rest.
    rewrite <- P. apply Permutation_middle.
Qed.

Lemma knn_loop_any : forall fuel pending seen ch, ssizes N A pending <= fuel ->
  Forall (fun e => twf N A dim (snd e)) pending -> Kany seen ch ->
  exists ch', knn_loop N A fuel dim d k q maxb eps pending (map (mkNB N A d q) ch) = Some (map (mkNB N A d q) ch') /\
    Kany (seen ++ selems N A pending) ch'.
Proof.
  assert (MORE : forall a b ch, Kany a ch -> (exists c, Permutation b (a ++ c)) -> Kany b ch).
  { intros a b ch (A1 & A2 & A3 & r & P) (c & Pc). repeat split; try assumption.
    exists (r ++ c). rewrite Pc, P, <- app_assoc. reflexivity. }
  induction fuel as [|fuel IH]; intros pending seen ch Hs F K.
  - destruct pending as [|[db t] rest].
    + exists ch. simpl. rewrite app_nil_r. auto.
    + simpl in Hs. pose proof (size_pos N A t). lia.
  - destruct pending as [|[db t] rest].
    { exists ch. simpl. rewrite app_nil_r. auto. }
    apply Forall_cons_iff in F. destruct F as [Wt F]. simpl in Wt, Hs. cbn [knn_loop].
    assert (TH : exists cm, (if length (map (mkNB N A d q) ch) <? k then Some maxb
                             else last_dist N A (map (mkNB N A d q) ch)) = Some cm).
    { rewrite map_length. destruct (Nat.ltb_spec (length ch) k); [eauto|].
      destruct (@exists_last _ ch) as (ch' & z & ->); [intros E; rewrite E in H; simpl in H; lia|].
      unfold last_dist. rewrite map_app, rev_app_distr. simpl. eauto. }
    destruct TH as (cm & ->).
    destruct (nlt cm db).
    + destruct (IH rest seen ch) as (ch' & E & K'); try assumption; [pose proof (size_pos N A t); lia|].
      exists ch'. split; [exact E|]. eapply MORE; [exact K'|]. exists (elems N A t).
      simpl. rewrite <- app_assoc. apply Permutation_app_head. apply Permutation_app_comm.
    + destruct (descend_any (fun x => nlt (nadd N x eps) cm) t rest Wt)
        as (data & pushes & dropped & E & P & Fo & Sz).
      rewrite E. destruct (update_any data seen ch cm K) as (ch1 & E1 & K1). rewrite E1.
      destruct (IH (pushes ++ rest) (data ++ seen) ch1) as (ch2 & E2 & K2); try assumption.
      { rewrite ssizes_app. lia. }
      { apply Forall_app. auto. }
      exists ch2. split; [exact E2|]. eapply MORE; [exact K2|]. exists dropped.
      simpl. fold (selems N A rest). rewrite selems_app, P. rewrite <- !app_assoc.
      rewrite (Permutation_app_swap_app seen data). apply Permutation_app_head, Permutation_app_head.
      apply Permutation_app_head. apply Permutation_app_comm.
Qed.
End KNN.
End P.

(** Lemmas on encoders. *)
From Coq Require Import Reals Lra Lia String Ascii Bool Permutation Sorted.
From Coq Require Import List.
From Verif Require Import MetricSpec WStatsSpec WStatsModel MetricModel PipeModel PipeSpec PipeProofs TfmModel TfmSpec TfmProofs EncSpec EncModel HotModel HotSpec.
Import ListNotations.
Open Scope R_scope.
Open Scope list_scope.

(** ** Byte order on strings. *)
Lemma below_trans a b c : below a b -> below b c -> below a c.
Proof.
  unfold below. revert b c. induction a as [|x a IH]; intros [|y b] [|z c]; cbn; try easy. unfold Ascii.compare.
  destruct (N.compare_spec (N_of_ascii x) (N_of_ascii y)) as [E|L|G]; [| |easy]; destruct (N.compare_spec (N_of_ascii y) (N_of_ascii z)) as [E'|L'|G']; try easy; intros H1 H2.
  - rewrite E, E', N.compare_refl. now apply (IH b).
  - assert (N.compare (N_of_ascii x) (N_of_ascii z) = Lt) as -> by (apply N.compare_lt_iff; lia). easy.
  - assert (N.compare (N_of_ascii x) (N_of_ascii z) = Lt) as -> by (apply N.compare_lt_iff; lia). easy.
  - assert (N.compare (N_of_ascii x) (N_of_ascii z) = Lt) as -> by (apply N.compare_lt_iff; lia). easy.
Qed.
Lemma compare_refl s : String.compare s s = Eq.
Proof. induction s as [|a s IH]; cbn; [easy|]. unfold Ascii.compare. now rewrite N.compare_refl. Qed.
Lemma below_irrefl s : ~ below s s.
Proof. unfold below. now rewrite compare_refl. Qed.
Lemma leb_below a b : String.leb a b = true <-> a = b \/ below a b.
Proof.
  unfold String.leb, below. destruct (String.compare a b) eqn:E; split; intros H; try easy.
  - left. now apply String.compare_eq_iff. - now right. - destruct H as [->|H]; [|easy]. now rewrite compare_refl in E.
Qed.
Lemma leb_false a b : String.leb a b = false -> below b a.
Proof. unfold String.leb, below. rewrite String.compare_antisym. now destruct (String.compare b a). Qed.
Lemma sins_perm a l : Permutation (a :: l) (sinsert a l).
Proof. induction l as [|b l IH]; cbn; [easy|]. destruct (String.leb a b); [easy|]. rewrite perm_swap. now constructor. Qed.
Lemma ssort_perm l : Permutation l (ssort l).
Proof. induction l as [|a l IH]; cbn; [constructor|]. rewrite <- sins_perm. now constructor. Qed.
Lemma ssort_sorted l : NoDup l -> StronglySorted below (ssort l).
Proof.
  induction l as [|a l IH]; cbn; intros N; [constructor|]. inversion N; subst. specialize (IH H2). fold (ssort l).
  assert (~ In a (ssort l)) as NI. { intros I. apply H1. now apply (Permutation_in _ (Permutation_sym (ssort_perm l))). }
  clear - IH NI. induction (ssort l) as [|b s IHs]; cbn; [repeat constructor|]. inversion IH; subst. destruct (String.leb a b) eqn:E.
  - apply leb_below in E. destruct E as [->|E]; [exfalso; apply NI; now left|]. constructor; [easy|]. constructor; [easy|]. eapply Forall_impl; [|exact H2]. intros c Hc. now apply (below_trans a b c).
  - apply leb_false in E. constructor; [apply IHs; [easy|intros I; apply NI; now right]|]. rewrite Forall_forall in *. intros c Hc. apply (Permutation_in _ (Permutation_sym (sins_perm a s))) in Hc. destruct Hc as [<-|Hc]; [easy|now apply H2].
Qed.
Lemma text_is y : is_text (text_col y) = true.
Proof. unfold is_text, text_col. induction y as [|[s|] y IH]; cbn; easy. Qed.
Lemma is_text_col v : is_text v = true -> exists y, v = text_col y.
Proof.
  unfold is_text. induction v as [|c v IH]; cbn; intros H; [now exists []|]. apply andb_true_iff in H. destruct H as (A & B). destruct (IH B) as (y & ->). destruct c; try easy; [now exists (None :: y)|now exists (Some s :: y)].
Qed.
Lemma texts_in y u : In u (texts (text_col y)) <-> In (Some u) y.
Proof.
  unfold texts, text_col. rewrite in_flat_map. split.
  - intros (c & I & J). apply in_map_iff in I. destruct I as ([s|] & <- & I); [|easy]. destruct J as [->|[]]. easy.
  - intros I. exists (Str u). split; [|now left]. apply in_map_iff. now exists (Some u).
Qed.
Lemma text_inj y z : text_col y = text_col z -> y = z.
Proof. unfold text_col. revert z. induction y as [|[s|] y IH]; intros [|[t|] z] H; cbn in H; try easy; inversion H; f_equal; auto. Qed.
Lemma levels_in y u : In u (levels (text_col y)) <-> In (Some u) y.
Proof. unfold levels. rewrite <- texts_in, <- (nodup_In string_dec (texts (text_col y))). split; intros H; [apply (Permutation_in _ (Permutation_sym (ssort_perm _)) H)|apply (Permutation_in _ (ssort_perm _) H)]. Qed.
Lemma levels_sorted v : StronglySorted below (levels v).
Proof. apply ssort_sorted, NoDup_nodup. Qed.
Lemma sorted_nodup l : StronglySorted below l -> NoDup l.
Proof. induction 1; constructor; [|easy]. intros I. rewrite Forall_forall in H0. now apply (below_irrefl a), H0. Qed.
(** ** Expressions with one named output each. *)
Lemma evals_single outs es g : Forall2 (fun (o : string * PipeModel.column) e => e g = Some [o]) outs es -> evals es g = Some outs.
Proof. induction 1 as [|o e outs es E F IH]; cbn; [easy|]. now rewrite E, IH. Qed.
Lemma lookup_nodup c (v : PipeModel.column) f : NoDup (names f) -> In (c, v) f -> lookup c f = Some v.
Proof.
  induction f as [|(d, w) f IH]; [easy|]. cbn. intros N I. inversion N; subst. unfold lookup. cbn. destruct (String.eqb_spec d c) as [->|NE].
  - destruct I as [I|I]; [now inversion I|]. exfalso. apply H1. change c with (fst (c, v)). now apply in_map.
  - destruct I as [I|I]; [congruence|]. now apply IH.
Qed.
Lemma with_outs outs es g : Forall2 (fun (o : string * PipeModel.column) e => e g = Some [o]) outs es -> NoDup (names outs) ->
  exists g', with_columns es g = Some g' /\ names g' = names g ++ filter (fun n => negb (mem n (names g))) (names outs) /\
    (forall n, ~ In n (names outs) -> lookup n g' = lookup n g) /\ (forall n v, In (n, v) outs -> lookup n g' = Some v).
Proof.
  intros F N. exists (put outs g). unfold with_columns. rewrite (evals_single outs es g F). apply distinct_iff in N as D. rewrite D. split; [easy|]. split; [|split].
  - apply put_names.
  - intros n NI. rewrite put_lookup. assert (lookup n outs = None) as ->; [|easy]. now apply lookup_none.
  - intros n v I. rewrite put_lookup. now rewrite (lookup_nodup n v outs N I).
Qed.
(** ** One-hot. *)
Definition hot_pairs (drop : bool) (f : frame) (cs : list string) : list (string * string) :=
  flat_map (fun c => match lookup c f with
      | Some v => if is_text v then if Nat.ltb 1 (length (levels v)) then map (pair c) (skipn (if drop then 1 else 0)%nat (levels v)) else [] else []
      | None => [] end) cs.
Lemma map_flat {A B C} (g : B -> C) (h : A -> list B) l : map g (flat_map h l) = flat_map (fun a => map g (h a)) l.
Proof. induction l as [|a l IH]; cbn; [easy|]. now rewrite map_app, IH. Qed.
Lemma one_hot_pairs sep drop f cs : NoDup cs -> incl cs (names f) ->
  one_hot sep drop f cs = match hot_pairs drop f cs with [] => None | ps => Some (map (fun p => hot_expr (fst p ++ sep ++ snd p)%string (fst p) (snd p)) ps) end.
Proof.
  intros N I. unfold one_hot. assert (forallb (fun c => mem c (names f)) cs = true) as ->. { apply forallb_forall. intros c Hc. now apply mem_iff, I. } apply distinct_iff in N. rewrite N. cbn [andb].
  cbv zeta. set (L := flat_map _ cs). assert (L = map (fun p => hot_expr (fst p ++ sep ++ snd p)%string (fst p) (snd p)) (hot_pairs drop f cs)) as ->.
  { unfold L. unfold hot_pairs. rewrite map_flat. apply flat_map_ext. intros c. destruct (lookup c f); [|easy]. destruct (is_text c0); [|easy]. destruct (Nat.ltb _ _); [|easy]. now rewrite map_map. }
  now destruct (hot_pairs drop f cs).
Qed.
Lemma two_or_more (l : list string) u : NoDup l -> In u l -> ((1 < length l)%nat <-> exists u', u' <> u /\ In u' l).
Proof.
  intros N I. split.
  - intros L. destruct l as [|a [|b l]]; cbn in L; try lia. destruct (string_dec a u) as [->|NE]; [|exists a; split; [easy|now left]].
    exists b. split; [|right; now left]. intros ->. inversion N; subst. apply H1. now left.
  - intros (u' & NE & I'). destruct l as [|a [|b l]]; cbn; try lia; [easy|]. destruct I as [->|[]], I' as [->|[]]. easy.
Qed.
Lemma hot_in drop f cs c u : In (c, u) (hot_pairs drop f cs) <-> gets_column f cs drop c u.
Proof.
  unfold hot_pairs, gets_column. rewrite in_flat_map. split.
  - intros (c' & Ic & H). destruct (lookup c' f) as [v|] eqn:L; [|easy]. destruct (is_text v) eqn:T; [|easy]. destruct (is_text_col v T) as (y & ->). destruct (Nat.ltb_spec 1 (length (levels (text_col y)))) as [Q|]; [|easy].
    apply in_map_iff in H. destruct H as (s & E & Is). inversion E; subst c' s. assert (In u (levels (text_col y))) as Iu. { destruct drop; [|easy]. destruct (levels (text_col y)); [easy|now right]. }
    pose proof (sorted_nodup _ (levels_sorted (text_col y))) as ND. split; [easy|]. split; [exists y; split; [easy|now apply levels_in]|]. split.
    + apply (two_or_more _ u) in Q; [|easy|easy]. destruct Q as (u' & NE & I'). exists u'. split; [easy|]. exists y. split; [easy|now apply levels_in].
    + intros ->. pose proof (levels_sorted (text_col y)) as SS. destruct (levels (text_col y)) as [|a l] eqn:EL; [easy|]. cbn in Is. inversion SS; subst. rewrite Forall_forall in H2. exists a. split; [|now apply H2].
      exists y. split; [easy|]. apply levels_in. rewrite EL. now left.
  - intros (Ic & (y & L & Iy) & (u' & NE & (y' & L' & Iy')) & D). exists c. split; [easy|]. rewrite L in *. inversion L' as [E]. apply text_inj in E. subst y'. rewrite text_is. apply levels_in in Iy, Iy'.
    pose proof (sorted_nodup _ (levels_sorted (text_col y))) as ND. assert (1 < length (levels (text_col y)))%nat as Q by (apply (two_or_more _ u); eauto).
    destruct (Nat.ltb_spec 1 (length (levels (text_col y)))); [|lia]. apply in_map. destruct drop; [|exact Iy]. destruct D as (w & (y'' & L'' & Iw) & B); [easy|]. rewrite L in L''. inversion L'' as [E]. apply text_inj in E. subst y''.
    apply levels_in in Iw. pose proof (levels_sorted (text_col y)) as SS. destruct (levels (text_col y)) as [|a l]; [easy|]. cbn. destruct Iy as [->|Iy]; [|easy]. exfalso. inversion SS; subst. rewrite Forall_forall in H3.
    destruct Iw as [->|Iw]; [now apply (below_irrefl w)|]. apply (below_irrefl u), (below_trans u w u); [now apply H3|easy].
Qed.
Lemma nodup_pairs {B} (h : string -> list B) cs : NoDup cs -> (forall c, NoDup (h c)) -> NoDup (flat_map (fun c => map (pair c) (h c)) cs).
Proof.
  intros N H. induction N as [|c cs NI N IH]; cbn; [constructor|]. assert (forall l1 l2 : list (string * B), NoDup l1 -> NoDup l2 -> (forall a, In a l1 -> ~ In a l2) -> NoDup (l1 ++ l2)) as AP.
  { clear. induction l1 as [|a l1 IH]; cbn; intros l2 N1 N2 D; [easy|]. inversion N1; subst. constructor; [|apply IH; auto]. intros I. apply in_app_iff in I. destruct I as [I|I]; [easy|]. apply (D a); [now left|easy]. }
  apply AP; [|easy|].
  - clear - H. specialize (H c). induction H as [|a l NI N IH]; cbn; constructor; [|easy]. intros I. apply in_map_iff in I. destruct I as (b & E & I). inversion E; now subst.
  - intros (d, b) I J. apply in_map_iff in I. destruct I as (b' & E & _). inversion E; subst. apply in_flat_map in J. destruct J as (c' & Ic & J). apply in_map_iff in J. destruct J as (b' & E' & _). inversion E'; now subst.
Qed.
Lemma hot_nodup drop f cs : NoDup cs -> NoDup (hot_pairs drop f cs).
Proof.
  intros N. unfold hot_pairs.
  rewrite (flat_map_ext _ (fun c => map (pair c) (match lookup c f with Some v => if is_text v then if Nat.ltb 1 (length (levels v)) then skipn (if drop then 1 else 0)%nat (levels v) else [] else [] | None => [] end))).
  2:{ intros c. destruct (lookup c f); [|easy]. destruct (is_text c0); [|easy]. now destruct (Nat.ltb _ _). }
  apply nodup_pairs; [easy|]. intros c. destruct (lookup c f); [|constructor]. destruct (is_text c0); [|constructor]. destruct (Nat.ltb _ _); [|constructor]. pose proof (sorted_nodup _ (levels_sorted c0)) as ND.
  destruct drop; [|easy]. destruct (levels c0); [easy|]. now inversion ND.
Qed.
Lemma nodup_map_inj {A B} (g : A -> B) l : NoDup l -> (forall a b, In a l -> In b l -> g a = g b -> a = b) -> NoDup (map g l).
Proof.
  induction 1 as [|a l NI N IH]; intros H; cbn; constructor.
  - intros I. apply in_map_iff in I. destruct I as (b & E & I). assert (b = a) by (apply H; [now right|now left|easy]). now subst.
  - apply IH. intros x y Ix Iy. apply H; now right.
Qed.
Lemma one_hot_thm sep drop f cs : NoDup cs -> incl cs (names f) -> (exists c u, gets_column f cs drop c u) ->
  (forall c u c' u', gets_column f cs drop c u -> gets_column f cs drop c' u' -> (c ++ sep ++ u = c' ++ sep ++ u')%string -> c = c' /\ u = u') ->
  exists es, one_hot sep drop f cs = Some es /\
    forall g, (forall c u, gets_column f cs drop c u -> exists y, lookup c g = Some (text_col y)) ->
      exists g', with_columns es g = Some g' /\
        (forall n, In n (names g') <-> In n (names g) \/ exists c u, gets_column f cs drop c u /\ n = (c ++ sep ++ u)%string) /\
        (forall n, (forall c u, gets_column f cs drop c u -> n <> (c ++ sep ++ u)%string) -> lookup n g' = lookup n g) /\
        (forall c u y, gets_column f cs drop c u -> lookup c g = Some (text_col y) ->
           lookup (c ++ sep ++ u)%string g' = Some (map (fun o => number (is_it o u)) y)).
Proof.
  intros N I (c0 & u0 & G0) INJ. rewrite (one_hot_pairs sep drop f cs N I). assert (hot_pairs drop f cs <> []) as NE. { apply hot_in in G0. now destruct (hot_pairs drop f cs). }
  destruct (hot_pairs drop f cs) as [|p ps] eqn:EP; [easy|]. clear NE. rewrite <- EP. eexists. split; [reflexivity|]. intros g HG.
  set (out := fun p : string * string => ((fst p ++ sep ++ snd p)%string, map (fun o => number (is_it o (snd p))) (match lookup (fst p) g with Some v => map (fun x => match x with Str s => Some s | _ => None end) v | None => [] end))).
  assert (forall y, map (fun x => match x with Str s => Some s | _ => None end) (text_col y) = y) as RT. { intros y. unfold text_col. rewrite map_map. rewrite <- (map_id y) at 2. apply map_ext. now intros [s|]. }
  destruct (with_outs (map out (hot_pairs drop f cs)) (map (fun p => hot_expr (fst p ++ sep ++ snd p)%string (fst p) (snd p)) (hot_pairs drop f cs)) g) as (g' & A & B & C & D).
  - assert (forall p, In p (hot_pairs drop f cs) -> exists y, lookup (fst p) g = Some (text_col y)) as T. { intros (c, u) Ip. apply hot_in in Ip. now apply (HG c u). }
    clear - T RT. induction (hot_pairs drop f cs) as [|p ps IH]; cbn [map]; constructor; [|apply IH; intros; apply T; now right]. destruct (T p) as (y & L); [now left|]. unfold hot_expr, out. rewrite L, text_is, RT. do 3 f_equal.
    unfold text_col. rewrite map_map. apply map_ext. now intros [s|].
  - unfold names. rewrite map_map. cbn [out fst]. apply nodup_map_inj; [now apply hot_nodup|]. intros (c, u) (c', u') Ip Ip' E. cbn in E. apply hot_in in Ip, Ip'. destruct (INJ c u c' u') as (-> & ->); easy.
  - exists g'. split; [exact A|]. assert (forall n, In n (names (map out (hot_pairs drop f cs))) <-> exists c u, gets_column f cs drop c u /\ n = (c ++ sep ++ u)%string) as NM.
    { intros n. unfold names. rewrite map_map. cbn [out fst]. rewrite in_map_iff. split; [intros ((c, u) & <- & Ip); apply hot_in in Ip; eauto|]. intros (c & u & Gc & ->). exists (c, u). split; [easy|now apply hot_in]. }
    split; [|split].
    + intros n. rewrite B, in_app_iff, filter_In, NM. destruct (mem n (names g)) eqn:M; cbn; split; intros H.
      * destruct H as [H|(_ & H)]; [now left|easy]. * apply mem_iff in M. now left. * destruct H as [H|(H & _)]; [now left|now right]. * destruct H as [H|H]; [now left|now right].
    + intros n H. apply C. rewrite NM. intros (c & u & Gc & ->). now apply (H c u).
    + intros c u y Gc L. apply D. apply in_map_iff. exists (c, u). split; [|now apply hot_in]. unfold out. cbn. now rewrite L, RT.
Qed.
Lemma lacks_split a s t s' t' : lacks a s -> lacks a s' -> (s ++ String a "" ++ t = s' ++ String a "" ++ t')%string -> s = s' /\ t = t'.
Proof.
  revert s'. induction s as [|b s IH]; intros [|b' s']; cbn; intros H H' E.
  - now inversion E. - inversion E; subst. now destruct H'. - inversion E; subst. now destruct H.
  - inversion E; subst. destruct (IH s' (proj2 H) (proj2 H') H2) as (-> & ->). easy.
Qed.
Lemma hot_names a drop f cs : Forall (lacks a) cs -> forall c u c' u', gets_column f cs drop c u -> gets_column f cs drop c' u' ->
  (c ++ String a "" ++ u = c' ++ String a "" ++ u')%string -> c = c' /\ u = u'.
Proof. intros F c u c' u' (I & _) (I' & _) E. rewrite Forall_forall in F. apply (lacks_split a); [now apply F|now apply F|easy]. Qed.
Lemma hot_decode sep drop f cs g' c y : (forall u, gets_column f cs drop c u -> lookup (c ++ sep ++ u)%string g' = Some (map (fun o => number (is_it o u)) y)) ->
  (forall i u, nth_error y i = Some (Some u) -> gets_column f cs drop c u ->
     forall u', gets_column f cs drop c u' -> exists w, lookup (c ++ sep ++ u')%string g' = Some w /\ nth_error w i = Some (number (if String.eqb u u' then 1 else 0))) /\
  (forall i o, nth_error y i = Some o -> (forall u, o = Some u -> ~ gets_column f cs drop c u) ->
     forall u', gets_column f cs drop c u' -> exists w, lookup (c ++ sep ++ u')%string g' = Some w /\ nth_error w i = Some (number 0)).
Proof.
  intros H. split.
  - intros i u E G u' G'. eexists. split; [now apply H|]. now rewrite (map_nth_error _ i y E).
  - intros i o E NG u' G'. eexists. split; [now apply H|]. rewrite (map_nth_error _ i y E). unfold is_it. destruct o as [s|]; [|easy]. destruct (String.eqb_spec s u') as [->|]; [|easy]. exfalso. now apply (NG u').
Qed.
Lemma hot_clash : exists f cs, proper f /\ NoDup cs /\ incl cs (names f) /\ (exists es, one_hot "_" false f cs = Some es /\ with_columns es f = None).
Proof.
  exists [("x"%string, [Str "a_b"; Str "c"]); ("x_a"%string, [Str "b"; Str "d"])], ["x"; "x_a"]%string. split; [|split; [|split]].
  - repeat constructor; cbn; intuition easy.
  - repeat constructor; cbn; intuition easy.
  - intros c H. exact H.
  - eexists. split; reflexivity.
Qed.
Lemma hot_overwrites : exists f es g, one_hot "_" false f ["x"%string] = Some es /\ with_columns es f = Some g /\ lookup "x_a" f = Some [number 7; number 8] /\ lookup "x_a" g = Some [number 1; number 0].
Proof.
  exists [("x"%string, [Str "a"; Str "b"]); ("x_a"%string, [number 7; number 8])]. eexists. eexists. split; [reflexivity|]. split; [reflexivity|]. split; reflexivity.
Qed.
Lemma hot_constant sep drop f c y u : lookup c f = Some (text_col y) -> In (Some u) y -> (forall s, In (Some s) y -> s = u) -> one_hot sep drop f [c] = None.
Proof.
  intros L I H. assert (incl [c] (names f)) as IN. { intros d [<-|[]]. destruct (mem c (names f)) eqn:M; [now apply mem_iff|]. apply mem_false, lookup_none in M. congruence. }
  rewrite one_hot_pairs by (try easy; repeat constructor; cbn; tauto). destruct (hot_pairs drop f [c]) as [|(d, s) ps] eqn:E; [easy|]. exfalso. assert (In (d, s) (hot_pairs drop f [c])) as G by (rewrite E; now left). apply hot_in in G.
  destruct G as ([<-|[]] & (y1 & L1 & I1) & (u' & NE & (y2 & L2 & I2)) & _). rewrite L in L1, L2. inversion L1 as [E1]. inversion L2 as [E2]. apply text_inj in E1, E2. subst. apply NE. now rewrite (H s I1), (H u' I2).
Qed.
(** ** Rank-hot. *)
Lemma append_inj_l a s t : (a ++ s = a ++ t)%string -> s = t.
Proof. induction a as [|x a IH]; cbn; intros H; [easy|]. inversion H. now apply IH. Qed.
Lemma append_self c s : (c ++ s = c)%string -> s = EmptyString.
Proof. induction c as [|x c IH]; cbn; intros H; [easy|]. inversion H. now apply IH. Qed.
Lemma rank_of_spec s rk k : NoDup rk -> (rank_of s rk = Some k <-> nth_error rk k = Some s).
Proof.
  intros N. revert k. induction N as [|r rk NI N IH]; intros k; cbn; [destruct k; easy|]. destruct (String.eqb_spec r s) as [->|NE].
  - destruct k as [|k]; cbn; [easy|]. split; [easy|]. intros H. apply nth_error_In in H. easy.
  - destruct k as [|k]; cbn; [|rewrite <- IH]; destruct (rank_of s rk); cbn; split; intros H; try easy; congruence.
Qed.
Lemma rank_of_none s rk : rank_of s rk = None <-> ~ In s rk.
Proof. induction rk as [|r rk IH]; cbn; [tauto|]. destruct (String.eqb_spec r s) as [->|NE]; [split; [easy|tauto]|]. destruct (rank_of s rk); cbn; [|tauto]. split; [easy|]. intros H. assert (~ In s rk) by tauto. apply IH in H0. easy. Qed.
Lemma rank_thm c rk g y : (2 <= length rk)%nat -> NoDup rk -> lookup c g = Some (text_col y) ->
  exists es g', rank_hot c rk = Some es /\ with_columns es g = Some g' /\
    (forall n, In n (names g') <-> In n (names g) \/ exists r, In r (tl rk) /\ n = (c ++ ">=" ++ r)%string) /\
    (forall n, (forall r, In r (tl rk) -> n <> (c ++ ">=" ++ r)%string) -> lookup n g' = lookup n g) /\
    lookup c g' = Some (text_col y) /\
    forall j r, nth_error rk j = Some r -> (1 <= j)%nat -> exists w, lookup (c ++ ">=" ++ r)%string g' = Some w /\ length w = length y /\
      forall i, (i < length y)%nat ->
        (forall k s, nth i y None = Some s -> nth_error rk k = Some s -> nth i w Null = number (if Nat.leb j k then 1 else 0)) /\
        ((forall s, nth i y None = Some s -> ~ In s rk) -> nth i w Null = number (-1)).
Proof.
  intros L N E. unfold rank_hot. destruct (Nat.leb_spec (length rk) 1); [lia|].
  set (val := fun (j : nat) (o : option string) => match o with Some s => match rank_of s rk with Some k => flag (Nat.leb j k) | None => Num (Fin (-1)) end | None => Num (Fin (-1)) end).
  set (ps := combine (seq 1 (length rk - 1)) (tl rk)).
  set (outs := map (fun ir : nat * string => ((c ++ ">=" ++ snd ir)%string, map (val (fst ir)) y)) ps).
  assert (map snd ps = tl rk) as SND. { unfold ps. destruct rk as [|r rk]; cbn in *; [lia|]. rewrite Nat.sub_0_r. clear. generalize 1%nat. induction rk as [|r rk IH]; intros m; cbn; [easy|]. now rewrite IH. }
  assert (forall j r, In (j, r) ps <-> nth_error rk j = Some r /\ (1 <= j)%nat) as PS.
  { clear - L. unfold ps. destruct rk as [|r0 rk]; cbn in *; [lia|]. rewrite Nat.sub_0_r. intros j r. assert (forall m, In (j, r) (combine (seq m (length rk)) rk) <-> (m <= j)%nat /\ nth_error rk (j - m) = Some r) as G.
    { clear. induction rk as [|a rk IH]; intros m; cbn; [split; [easy|intros (_ & H); now destruct (j - m)%nat]|]. rewrite IH. split.
      - intros [H|(H & H')]; [inversion H; subst; split; [lia|]; now rewrite Nat.sub_diag|]. split; [lia|]. replace (j - m)%nat with (S (j - S m)) by lia. exact H'.
      - intros (H & H'). destruct (Nat.eq_dec j m) as [->|NE]; [left; rewrite Nat.sub_diag in H'; cbn in H'; now inversion H'|right]. split; [lia|]. replace (j - m)%nat with (S (j - S m)) in H' by lia. exact H'. }
    rewrite G. destruct j as [|j]; cbn; [split; [intros (H & _); lia|intros (_ & H); lia]|]. rewrite Nat.sub_0_r. split; intros (H & H'); split; try easy; lia. }
  assert (NoDup (names outs)) as NO.
  { unfold names, outs. rewrite map_map. cbn [fst]. rewrite <- (map_map snd (fun r => (c ++ ">=" ++ r)%string)), SND. apply nodup_map_inj; [destruct N; [constructor|easy]|]. intros a b _ _ H1. apply append_inj_l in H1. now inversion H1. }
  assert (evals (map (fun ir => rank_expr c rk (fst ir) (c ++ ">=" ++ snd ir)%string) ps) g = Some outs) as V.
  { apply evals_single. unfold outs. clear - E N. induction ps as [|p ps IH]; cbn [map]; constructor; [|easy]. unfold rank_expr. rewrite E, text_is. apply distinct_iff in N. rewrite N. cbn [andb]. do 3 f_equal. unfold text_col. rewrite map_map. apply map_ext. now intros [s|]. }
  assert (names outs = map (fun r => (c ++ ">=" ++ r)%string) (tl rk)) as NN. { unfold names, outs. rewrite map_map. cbn [fst]. now rewrite <- (map_map snd (fun r => (c ++ ">=" ++ r)%string)), SND. }
  exists (map (fun ir => rank_expr c rk (fst ir) (c ++ ">=" ++ snd ir)%string) ps), (put outs g). split; [reflexivity|]. split; [|split; [|split; [|split]]].
  - unfold with_columns. rewrite V. apply distinct_iff in NO. rewrite NO. reflexivity.
  - intros n. rewrite put_names, in_app_iff, filter_In, NN, in_map_iff. destruct (mem n (names g)) eqn:M; cbn; split; intros HH.
    + destruct HH as [HH|(_ & HH)]; [now left|easy]. + apply mem_iff in M. now left.
    + destruct HH as [HH|((r & <- & I) & _)]; [now left|right; eauto]. + destruct HH as [HH|(r & I & ->)]; [now left|right; split; [eauto|easy]].
  - intros n HH. rewrite put_lookup. assert (lookup n outs = None) as ->; [|easy]. apply lookup_none. rewrite NN, in_map_iff. intros (r & <- & I). now apply (HH r).
  - rewrite put_lookup. assert (lookup c outs = None) as ->; [|easy]. apply lookup_none. rewrite NN, in_map_iff. intros (r & EQ & I). now apply append_self in EQ.
  - intros j r J L1. exists (map (val j) y). split; [|split].
    + rewrite put_lookup. rewrite (lookup_nodup (c ++ ">=" ++ r)%string (map (val j) y) outs NO); [easy|]. unfold outs. apply in_map_iff. exists (j, r). split; [easy|]. now apply PS.
    + apply map_length.
    + intros i Hi. rewrite (nth_indep _ Null (val j None)) by now rewrite map_length. rewrite map_nth. split.
      * intros k s Es Ks. rewrite Es. cbn. apply (rank_of_spec s rk k N) in Ks. now rewrite Ks.
      * intros H1. destruct (nth i y None) as [s|]; cbn; [|easy]. specialize (H1 s eq_refl). apply rank_of_none in H1. now rewrite H1.
Qed.
Lemma rank_refused c rk : (length rk <= 1)%nat -> rank_hot c rk = None.
Proof. intros H. unfold rank_hot. now destruct (Nat.leb_spec (length rk) 1); [|lia]. Qed.
(** ** Products. *)
Lemma cwr_cons {A} d (a : A) l : cwr (S d) (a :: l) = map (cons a) (cwr d (a :: l)) ++ cwr (S d) l.
Proof. reflexivity. Qed.
Lemma cwr_nil {A} d : @cwr A (S d) [] = [].
Proof. reflexivity. Qed.
Lemma cwr_len {A} d (l : list A) : length (cwr d l) = choose (length l + d - 1) d.
Proof.
  revert l. induction d as [|d IH]; intros l; [cbn; now destruct (length l + 0 - 1)%nat|]. induction l as [|a l IHl].
  - rewrite cwr_nil. cbn [length]. replace (0 + S d - 1)%nat with d by lia. clear. assert (forall d k, (d < k)%nat -> choose d k = 0%nat) as Z. { clear. induction d as [|d IH]; intros [|k] H; cbn; try lia. rewrite !IH by lia. easy. } symmetry. apply Z. lia.
  - rewrite cwr_cons, app_length, map_length, IH, IHl. cbn [length]. replace (S (length l) + S d - 1)%nat with (S (length l + d)) by lia. replace (S (length l) + d - 1)%nat with (length l + d)%nat by lia. replace (length l + S d - 1)%nat with (length l + d)%nat by lia. reflexivity.
Qed.
Lemma cwr_in {A} d : forall (l m : list A), In m (cwr d l) <-> length m = d /\ in_order l m.
Proof.
  induction d as [|d IH]; intros l m.
  - cbn. split; [intros [<-|[]]; split; [easy|]; exists []; repeat constructor|]. intros (H & _). destruct m; [now left|easy].
  - induction l as [|a l IHl].
    + rewrite cwr_nil. split; [easy|]. intros (H & ps & _ & F & M). destruct ps as [|p ps]; [now destruct m|]. inversion F; subst. cbn in *. lia.
    + rewrite cwr_cons, in_app_iff, in_map_iff, IHl. split.
      * intros [(m' & <- & I)|(H & ps & SS & F & M)].
        -- apply IH in I. destruct I as (H & ps & SS & F & M). split; [cbn; lia|]. exists (0%nat :: ps). split; [constructor; [easy|]; apply Forall_forall; intros; lia|]. split; [constructor; [cbn; lia|easy]|]. cbn. now rewrite M.
        -- split; [easy|]. exists (map S ps). split; [|split].
           ++ clear - SS. induction SS as [|p ps SS IH F]; cbn; constructor; [easy|]. rewrite Forall_forall in *. intros q I. apply in_map_iff in I. destruct I as (q' & <- & I). specialize (F q' I). lia.
           ++ rewrite Forall_forall in *. intros q I. apply in_map_iff in I. destruct I as (q' & <- & I). specialize (F q' I). cbn. lia.
           ++ rewrite map_map. exact M.
      * intros (H & ps & SS & F & M). destruct m as [|b m]; [easy|]. destruct ps as [|p ps]; [easy|]. cbn in M. inversion M as [[M1 M2]]. inversion SS; subst. inversion F; subst. destruct p as [|p].
        -- left. cbn in M1. inversion M1; subst b. exists m. split; [easy|]. apply IH. split; [cbn in H; lia|]. exists ps. easy.
        -- right. split; [easy|]. exists (map pred (S p :: ps)). assert (Forall (fun q => (S p <= q)%nat) ps) as GE by easy. split; [|split].
           ++ cbn. constructor.
              ** clear - H2 GE. induction H2 as [|q ps SS IH F]; cbn; constructor; [inversion GE; now apply IH|]. rewrite Forall_forall in *. intros r I. apply in_map_iff in I. destruct I as (r' & <- & I). specialize (F r' I). lia.
              ** rewrite Forall_forall in *. intros r I. apply in_map_iff in I. destruct I as (r' & <- & I). specialize (GE r' I). lia.
           ++ rewrite Forall_forall in *. intros r I. apply in_map_iff in I. destruct I as (r' & <- & I). destruct I as [<-|I]; [cbn in *; lia|]. pose proof (GE r' I). specialize (H5 r' I). cbn in *. lia.
           ++ rewrite map_map. cbn [map pred]. f_equal; [exact M1|]. rewrite M2. apply map_ext_in. intros q I. rewrite Forall_forall in GE. specialize (GE q I). destruct q; [lia|]. easy.
Qed.
Lemma cwr_sub {A} d (l m : list A) : In m (cwr d l) -> incl m l.
Proof.
  intros I. apply cwr_in in I. destruct I as (_ & ps & _ & _ & M). intros a Ia. assert (In (Some a) (map Some m)) as H by now apply in_map. rewrite M in H. apply in_map_iff in H. destruct H as (p & E & _). now apply nth_error_In in E.
Qed.
Lemma nodup_app {A} (l1 l2 : list A) : NoDup l1 -> NoDup l2 -> (forall a, In a l1 -> ~ In a l2) -> NoDup (l1 ++ l2).
Proof. induction 1 as [|a l1 NI N IH]; cbn; intros N2 D; [easy|]. constructor; [|apply IH; auto]. intros I. apply in_app_iff in I. destruct I as [I|I]; [easy|]. apply (D a); [now left|easy]. Qed.
Lemma cwr_nodup {A} d (l : list A) : NoDup l -> NoDup (cwr d l).
Proof.
  revert l. induction d as [|d IH]; intros l N; [cbn; repeat constructor; easy|]. induction N as [|a l NI N IHl]; [constructor|]. rewrite cwr_cons. apply nodup_app.
  - apply nodup_map_inj; [apply IH; now constructor|]. intros x y _ _ E. now inversion E.
  - easy.
  - intros m I J. apply in_map_iff in I. destruct I as (m' & <- & _). apply cwr_sub in J. apply NI, J. now left.
Qed.
Lemma cwr_exists {A} (dec : forall a b : A, {a = b} + {a <> b}) d : forall (l m : list A), length m = d -> incl m l -> exists m', In m' (cwr d l) /\ Permutation m m'.
Proof.
  induction d as [|d IH]; intros l m L I; [destruct m; [|easy]; exists []; split; [now left|easy]|]. induction l as [|a l IHl]; [destruct m as [|b m]; [easy|]; exfalso; apply (I b); now left|].
  rewrite cwr_cons. destruct (in_dec dec a m) as [Ia|NI].
  - apply in_split in Ia. destruct Ia as (m1 & m2 & ->). destruct (IH (a :: l) (m1 ++ m2)) as (m' & Im & P).
    + rewrite app_length in *. cbn in L. lia.
    + intros b Ib. apply I. apply in_app_iff in Ib. apply in_app_iff. cbn. tauto.
    + exists (a :: m'). split; [apply in_app_iff; left; now apply in_map|]. rewrite <- P. symmetry. apply Permutation_middle.
  - destruct IHl as (m' & Im & P); [intros b Ib; destruct (I b Ib) as [<-|H]; [easy|easy]|]. exists m'. split; [apply in_app_iff; now right|easy].
Qed.
Lemma cwr_unique {A} (dec : forall a b : A, {a = b} + {a <> b}) d : forall (l m m' : list A), NoDup l -> In m (cwr d l) -> In m' (cwr d l) -> Permutation m m' -> m = m'.
Proof.
  induction d as [|d IH]; intros l m m' N I I' P; [destruct I as [<-|[]], I' as [<-|[]]; easy|]. induction N as [|a l NI N IHl]; [easy|].
  rewrite cwr_cons, in_app_iff, in_map_iff in I, I'. destruct I as [(t & <- & I)|I], I' as [(t' & <- & I')|I'].
  - f_equal. apply (IH (a :: l)); try easy; [now constructor|]. now apply Permutation_cons_inv in P.
  - exfalso. apply NI, (cwr_sub _ _ _ I'). apply (Permutation_in _ P). now left.
  - exfalso. apply NI, (cwr_sub _ _ _ I). apply (Permutation_in _ (Permutation_sym P)). now left.
  - now apply IHl.
Qed.
Lemma in_order_multiset d (cs m : list string) : NoDup cs -> length m = d -> incl m cs ->
  exists m', in_order cs m' /\ Permutation m m' /\ forall m'', in_order cs m'' -> Permutation m m'' -> m'' = m'.
Proof.
  intros N L I. destruct (cwr_exists string_dec d cs m L I) as (m' & Im & P). exists m'. apply cwr_in in Im as Q. split; [easy|]. split; [easy|]. intros m'' O P'.
  apply (cwr_unique string_dec d cs); try easy; [|now rewrite <- P']. apply cwr_in. split; [|easy]. now rewrite <- (Permutation_length P').
Qed.
Lemma concat_cons a b m : (String.concat "*" (a :: b :: m) = a ++ String "*" "" ++ String.concat "*" (b :: m))%string.
Proof. reflexivity. Qed.
Lemma concat_inj m : forall m', length m = length m' -> Forall (lacks "*") m -> Forall (lacks "*") m' -> String.concat "*" m = String.concat "*" m' -> m = m'.
Proof.
  induction m as [|a m IH]; intros [|a' m'] L F F' E; try easy. destruct m as [|b m], m' as [|b' m']; cbn in L; try lia; [cbn in E; now subst|]. rewrite !concat_cons in E. inversion F; inversion F'; subst. destruct (lacks_split "*" _ _ _ _ H1 H5 E) as (-> & E').
  f_equal. apply IH; try easy. cbn. lia.
Qed.
Lemma concat_has_star a b m : ~ lacks "*" (String.concat "*" (a :: b :: m)).
Proof. rewrite concat_cons. induction a as [|x a IH]; cbn; [tauto|]. intros (_ & H). now apply IH. Qed.
Definition mulo (a b : option R) : option R := match a, b with Some x, Some y => Some (x * y) | _, _ => None end.
Lemma mulo_assoc a b c : mulo (mulo a b) c = mulo a (mulo b c).
Proof. destruct a, b, c; cbn; try easy. f_equal. lra. Qed.
Lemma row_product_cons x xs : row_product (x :: xs) = mulo x (row_product xs).
Proof. reflexivity. Qed.
Lemma mul_real a b : length a = length b -> exists w, mul_col (real_col a) (real_col b) = Some (real_col w) /\ length w = length a /\ forall i, nth i w None = mulo (nth i a None) (nth i b None).
Proof.
  intros L. unfold mul_col. unfold real_col at 1 2. rewrite !map_length, L, Nat.eqb_refl. revert b L. induction a as [|x a IH]; intros [|y b] L; try easy.
  - exists []. repeat split. now intros [|i].
  - cbn in L. destruct (IH b ltac:(lia)) as (w & E & LW & V). exists (mulo x y :: w). split; [|split; [cbn; lia|intros [|i]; [easy|apply V]]].
    unfold real_col in *. cbn [map combine traverse fst snd]. rewrite E. now destruct x, y.
Qed.
Lemma reduce_real g h (x : string -> rcol) cs : (forall c, In c cs -> lookup c g = Some (real_col (x c)) /\ length (x c) = h) -> forall a, length a = h ->
  exists w, reduce_mul (real_col a) cs g = Some (real_col w) /\ length w = h /\ forall i, (i < h)%nat -> nth i w None = mulo (nth i a None) (row_product (map (fun c => nth i (x c) None) cs)).
Proof.
  induction cs as [|c cs IH]; intros H a L.
  - exists a. split; [easy|]. split; [easy|]. intros i _. cbn. destruct (nth i a None); cbn; [|easy]. now rewrite Rmult_1_r.
  - destruct (H c) as (E & LC); [now left|]. cbn [reduce_mul]. rewrite E. destruct (mul_real a (x c)) as (b & -> & LB & VB); [congruence|]. destruct (IH (fun d I => H d (or_intror I)) b) as (w & EW & LW & VW); [congruence|].
    exists w. split; [easy|]. split; [easy|]. intros i Hi. rewrite VW by easy. rewrite VB, mulo_assoc. reflexivity.
Qed.
Lemma prod_real g h (x : string -> rcol) m out : m <> [] -> (forall c, In c m -> lookup c g = Some (real_col (x c)) /\ length (x c) = h) ->
  prod_expr m out g = Some [(out, real_col (map (fun i => row_product (map (fun c => nth i (x c) None) m)) (seq 0 h)))].
Proof.
  intros NE H. destruct m as [|c m]; [easy|]. unfold prod_expr. destruct (H c) as (-> & L); [now left|]. destruct (reduce_real g h x m (fun d I => H d (or_intror I)) (x c) L) as (w & -> & LW & V).
  cbn [option_map]. do 4 f_equal. apply nth_ext with None None; [now rewrite map_length, seq_length|]. intros i Hi. rewrite V by lia.
  set (f0 := fun i0 => row_product (map (fun c0 => nth i0 (x c0) None) (c :: m))). rewrite (nth_indep (map f0 (seq 0 h)) None (f0 0%nat)) by (rewrite map_length, seq_length; lia). rewrite (map_nth f0), seq_nth by lia. reflexivity.
Qed.
Lemma two_iff m : two_names m = true <-> exists a b, In a m /\ In b m /\ a <> b.
Proof.
  unfold two_names. rewrite Nat.ltb_lt. split.
  - intros L. destruct (nodup string_dec m) as [|a [|b l]] eqn:E; cbn in L; try lia. exists a, b. assert (NoDup (a :: b :: l)) as N by (rewrite <- E; apply NoDup_nodup).
    split; [apply (nodup_In string_dec); rewrite E; now left|]. split; [apply (nodup_In string_dec); rewrite E; right; now left|]. intros ->. inversion N; subst. apply H1. now left.
  - intros (a & b & Ia & Ib & NE). apply (nodup_In string_dec) in Ia, Ib. destruct (nodup string_dec m) as [|c [|d l]]; cbn; try lia; [easy|]. destruct Ia as [->|[]], Ib as [->|[]]. easy.
Qed.
Lemma wanted_in cs d inter m : In m (filter (fun comb => negb inter || two_names comb) (cwr d cs)) <-> wanted cs d inter m.
Proof.
  rewrite filter_In, cwr_in. unfold wanted. destruct inter; cbn [negb orb]; [rewrite two_iff|]; split; intros H; try tauto.
  - destruct H as ((A & B) & C). split; [easy|]. split; [easy|]. easy.
Qed.
Lemma powers_count d cs : (1 <= d)%nat -> NoDup cs -> (length (filter (fun comb => two_names comb) (cwr d cs)) + length cs = length (cwr d cs))%nat.
Proof.
  intros D N. assert (Permutation (filter (fun m => negb (two_names m)) (cwr d cs)) (map (fun a => repeat a d) cs)) as P.
  { apply NoDup_Permutation; [apply NoDup_filter, cwr_nodup, N| |].
    - apply nodup_map_inj; [easy|]. intros a b _ _ E. destruct d; [lia|]. now inversion E.
    - intros m. rewrite filter_In, in_map_iff. split.
      + intros (I & T). apply negb_true_iff in T. pose proof (cwr_sub _ _ _ I) as SUB. apply cwr_in in I. destruct I as (L & _). destruct m as [|a m]; [cbn in L; lia|]. exists a. split; [|apply SUB; now left].
        assert (forall b, In b (a :: m) -> b = a) as ALL. { intros b Ib. destruct (string_dec b a) as [|NE]; [easy|]. exfalso. assert (two_names (a :: m) = true) by (apply two_iff; exists b, a; split; [easy|]; split; [now left|easy]). congruence. }
        rewrite <- L. clear - ALL. induction (a :: m) as [|b l IH]; cbn; [easy|]. rewrite (ALL b) by now left. f_equal. apply IH. intros c I. apply ALL. now right.
      + intros (a & <- & I). split.
        * apply cwr_in. split; [apply repeat_length|]. apply In_nth_error in I. destruct I as (p & E). exists (repeat p d). split; [|split].
          -- clear. induction d as [|d IH]; cbn; constructor; [easy|]. apply Forall_forall. intros q I. apply repeat_spec in I. lia.
          -- apply Forall_forall. intros q I. apply repeat_spec in I. subst. apply nth_error_Some. congruence.
          -- clear - E. induction d as [|d IH]; cbn; [easy|]. now rewrite E, IH.
        * apply negb_true_iff. destruct (two_names (repeat a d)) eqn:T; [|easy]. apply two_iff in T. destruct T as (u & v & Iu & Iv & NE). apply repeat_spec in Iu, Iv. congruence. }
  apply Permutation_length in P. rewrite map_length in P. rewrite <- P. clear. induction (cwr d cs) as [|m l IH]; [easy|]. cbn [filter length]. destruct (two_names m); cbn [negb length]; lia.
Qed.
Lemma poly_thm cs d inter g h (x : string -> rcol) : (2 <= d)%nat -> NoDup cs -> Forall (lacks "*") cs ->
  (forall c, In c cs -> lookup c g = Some (real_col (x c)) /\ length (x c) = h) ->
  exists es g', polynomial_features cs d inter = Some es /\ with_columns es g = Some g' /\
    (forall n, In n (names g') <-> In n (names g) \/ exists m, wanted cs d inter m /\ n = String.concat "*" m) /\
    (forall n, (forall m, wanted cs d inter m -> n <> String.concat "*" m) -> lookup n g' = lookup n g) /\
    (forall c, In c cs -> lookup c g' = lookup c g) /\
    (forall m, wanted cs d inter m -> lookup (String.concat "*" m) g' = Some (real_col (map (fun i => row_product (map (fun c => nth i (x c) None) m)) (seq 0 h)))) /\
    length es = (choose (length cs + d - 1) d - if inter then length cs else 0)%nat.
Proof.
  intros D N F H. unfold polynomial_features. destruct (Nat.leb_spec d 1); [lia|].
  set (ms := filter (fun comb => negb inter || two_names comb) (cwr d cs)).
  set (outs := map (fun m => (String.concat "*" m, real_col (map (fun i => row_product (map (fun c => nth i (x c) None) m)) (seq 0 h)))) ms).
  assert (forall m, In m ms <-> wanted cs d inter m) as W by apply wanted_in.
  assert (forall m, In m ms -> length m = d /\ incl m cs) as MS. { intros m I. apply filter_In in I. destruct I as (I & _). split; [now apply cwr_in in I|now apply cwr_sub in I]. }
  assert (names outs = map (String.concat "*") ms) as NM. { unfold names, outs. now rewrite map_map. }
  destruct (with_outs outs (map (fun comb => prod_expr comb (String.concat "*" comb)) ms) g) as (g' & A & B & C & E).
  - assert (forall m, In m ms -> m <> [] /\ incl m cs) as MS'. { intros m I. destruct (MS m I) as (L & SUB). split; [destruct m; [cbn in L; lia|easy]|easy]. }
    unfold outs. clear - MS' H. induction ms as [|m ms IH]; cbn [map]; constructor; [|apply IH; intros; apply MS'; now right]. destruct (MS' m) as (NE & SUB); [now left|]. apply prod_real; [easy|]. intros c I. now apply H, SUB.
  - rewrite NM. apply nodup_map_inj; [apply NoDup_filter, cwr_nodup, N|]. intros m m' I I' EQ. destruct (MS m I) as (L & SUB). destruct (MS m' I') as (L' & SUB'). rewrite Forall_forall in F. apply concat_inj; try easy; [congruence| |]; apply Forall_forall; intros c Ic; apply F; auto.
  - eexists. exists g'. split; [reflexivity|]. split; [exact A|]. assert (forall n, (forall m, wanted cs d inter m -> n <> String.concat "*" m) -> lookup n g' = lookup n g) as KEEP.
    { intros n Hn. apply C. rewrite NM, in_map_iff. intros (m & <- & I). apply W in I. now apply (Hn m). }
    split; [|split; [exact KEEP|split; [|split]]].
    + intros n. rewrite B, in_app_iff, filter_In, NM, in_map_iff. destruct (mem n (names g)) eqn:M; cbn; split; intros HH.
      * destruct HH as [HH|(_ & HH)]; [now left|easy]. * apply mem_iff in M. now left. * destruct HH as [HH|((m & <- & I) & _)]; [now left|right; exists m; split; [now apply W|easy]]. * destruct HH as [HH|(m & I & ->)]; [now left|right]. split; [exists m; split; [easy|now apply W]|easy].
    + intros c Ic. apply KEEP. intros m Wm ->. apply W in Wm. destruct (MS m Wm) as (L & _). rewrite Forall_forall in F. destruct m as [|a [|b m]]; cbn in L; try lia. apply (concat_has_star a b m), F, Ic.
    + intros m Wm. apply E. unfold outs. apply in_map_iff. exists m. split; [easy|now apply W].
    + rewrite map_length. unfold ms. destruct inter; cbn [negb orb].
      * pose proof (powers_count d cs ltac:(lia) N) as PC. rewrite cwr_len in PC. rewrite <- PC. lia.
      * rewrite Nat.sub_0_r, <- cwr_len. clear. induction (cwr d cs) as [|m l IH]; cbn; [easy|now rewrite IH].
Qed.
Lemma poly_refused cs d inter : (d <= 1)%nat -> polynomial_features cs d inter = None.
Proof. intros H. unfold polynomial_features. now destruct (Nat.leb_spec d 1); [|lia]. Qed.
Lemma poly_clash : exists f cs es, proper f /\ NoDup cs /\ incl cs (names f) /\ polynomial_features cs 2 true = Some es /\ with_columns es f = None.
Proof.
  exists [("a"%string, [number 1]); ("b*c"%string, [number 2]); ("a*b"%string, [number 3]); ("c"%string, [number 4])], ["a"; "b*c"; "a*b"; "c"]%string. eexists. split; [|split; [|split; [|split]]].
  - repeat constructor; cbn; intuition easy.
  - repeat constructor; cbn; intuition easy.
  - intros c H. exact H.
  - reflexivity.
  - reflexivity.
Qed.
(** ** Encoders. *)
Lemma text_rows_col y x : text_rows (text_col y) x = combine y x.
Proof. unfold text_rows, text_col. rewrite map_map. f_equal. rewrite <- (map_id y) at 2. apply map_ext. now intros [s|]. Qed.
Lemma find_table (tb : list (string * xnum)) k : NoDup (map fst tb) ->
  (forall v, In (k, v) tb -> find (fun p => String.eqb (fst p) k) tb = Some (k, v)) /\ ((forall v, ~ In (k, v) tb) -> find (fun p => String.eqb (fst p) k) tb = None).
Proof.
  induction tb as [|(a, v) tb IH]; cbn; intros N; [easy|]. inversion N; subst. destruct (IH H2) as (A & B). destruct (String.eqb_spec a k) as [->|NE].
  - split; [|intros H; exfalso; apply (H v); now left]. intros w [E|I]; [now inversion E|]. exfalso. apply H1. change k with (fst (k, w)). now apply in_map.
  - split; [intros w [E|I]; [inversion E; now subst|now apply A]|]. intros H. apply B. intros w I. apply (H w). now right.
Qed.
Lemma enc_gen table (V : list (@row string) -> string -> xnum) (good : list (@row string) -> Prop) :
  (forall rows, good rows -> exists tb, table rows = Some tb /\ is_table rows (V rows) tb) ->
  forall target d f cs x dv, NoDup cs -> incl cs (names f) -> (exists c y, In c cs /\ lookup c f = Some (text_col y)) ->
    lookup target f = Some (real_col x) -> (forall c y, In c cs -> lookup c f = Some (text_col y) -> good (combine y x)) -> default_value (real_col x) d = Some dv ->
    exists es, encoder table target d f cs = Some es /\
      forall g, (forall c y, In c cs -> lookup c f = Some (text_col y) -> exists z, lookup c g = Some (text_col z)) ->
        exists g', with_columns es g = Some g' /\ names g' = names g /\
          (forall n, (~ In n cs \/ forall y, lookup n f <> Some (text_col y)) -> lookup n g' = lookup n g) /\
          forall c y z, In c cs -> lookup c f = Some (text_col y) -> lookup c g = Some (text_col z) ->
            exists w, lookup c g' = Some (num_col w) /\ length w = length z /\ forall i, (i < length z)%nat ->
              (forall k, nth i z None = Some k -> occurs k (combine y x) -> nth i w None = Some (V (combine y x) k)) /\
              ((forall k, nth i z None = Some k -> ~ occurs k (combine y x)) -> nth i w None = dv).
Proof.
  intros TB target d f cs x dv N I (c0 & y0 & I0 & L0) LT GOOD DV. unfold encoder. assert (forallb (fun c => mem c (names f)) cs = true) as ->. { apply forallb_forall. intros c Hc. now apply mem_iff, I. }
  apply distinct_iff in N as D. rewrite D, LT, DV, reals_col. cbn [andb]. set (valid := filter _ cs).
  assert (forall c, In c valid <-> In c cs /\ exists y, lookup c f = Some (text_col y)) as VD.
  { intros c. unfold valid. rewrite filter_In. split; intros (A & B); (split; [easy|]).
    - destruct (lookup c f) as [v|]; [|easy]. destruct (is_text_col v B) as (y & ->). now exists y.
    - destruct B as (y & ->). apply text_is. }
  assert (valid <> []) as NE. { assert (In c0 valid) as Q by (apply VD; eauto). now destruct valid. }
  assert (NoDup valid) as NV by now apply NoDup_filter.
  set (k := fun c => match lookup c f with Some v => option_map (fun tb => dict_expr c tb dv) (table (text_rows v x)) | None => None end).
  destruct (traverse_total k valid) as (es & E). { intros c Ic. apply VD in Ic. destruct Ic as (Ic & y & L). unfold k. rewrite L, text_rows_col. destruct (TB (combine y x) (GOOD c y Ic L)) as (tb & -> & _). cbn. eauto. }
  exists es. split. { destruct valid as [|v vs] eqn:EV; [easy|]. exact E. }
  intros g HG. apply traverse_all in E.
  set (enc := fun c v => match lookup c f with Some u => match table (text_rows u x) with Some tb =>
     map (fun o : cell => let r := match o with Str s => match find (fun p => String.eqb (fst p) s) tb with Some p => Some (snd p) | None => dv end | _ => dv end in match r with Some y => Num y | None => Null end) v | None => [] end | None => [] end).
  set (w := fun c => match lookup c g with Some v => enc c v | None => [] end).
  destruct (apply_gen g w valid es NV) as (g' & A & B & C & Dn).
  - intros c Ic. apply VD in Ic. destruct Ic as (Ic & y & L). destruct (HG c y Ic L) as (z & Lz). destruct (mem c (names g)) eqn:Q; [now apply mem_iff|]. apply mem_false, lookup_none in Q. congruence.
  - assert (forall c, In c valid -> In c cs /\ exists y, lookup c f = Some (text_col y)) as VD' by (intros; now apply VD). clear VD NE NV. clearbody valid. induction E as [|c e valid es E0 E IH]; constructor; [|apply IH; intros; apply VD'; now right].
    destruct (VD' c) as (Ic & y & L); [now left|]. unfold k in E0. unfold w, enc. rewrite L in E0 |- *. rewrite text_rows_col in E0 |- *. destruct (TB (combine y x) (GOOD c y Ic L)) as (tb & T & (NT & _)). rewrite T in E0 |- *. cbn in E0. injection E0 as <-. destruct (HG c y Ic L) as (z & Lz). unfold dict_expr. rewrite Lz, text_is.
    apply distinct_iff in NT. rewrite NT. reflexivity.
  - exists g'. split; [easy|]. split; [easy|]. split.
    + intros n Hn. apply C. intros Iv. apply VD in Iv. destruct Iv as (In_ & y & L). destruct Hn as [Hn|Hn]; [easy|]. now apply (Hn y).
    + intros c y z Ic L Lz. destruct (TB (combine y x) (GOOD c y Ic L)) as (tb & T & (NT & IT)).
      exists (map (fun o => match o with Some s => match find (fun p => String.eqb (fst p) s) tb with Some p => Some (snd p) | None => dv end | None => dv end) z). split; [|split].
      * rewrite (Dn c) by (apply VD; eauto). unfold w, enc. rewrite Lz, L, text_rows_col, T. f_equal. unfold text_col, num_col. rewrite !map_map. apply map_ext. intros [s|]; cbn; [|easy]. now destruct (find _ tb).
      * apply map_length.
      * intros i Hi. set (h := fun o : option string => _). rewrite (nth_indep (map h z) None (h None)) by now rewrite map_length. rewrite (map_nth h). split.
        -- intros s Es Oc. rewrite Es. cbn. destruct (find_table tb s NT) as (F1 & _). rewrite (F1 (V (combine y x) s)); [easy|]. now apply IT.
        -- intros NO. destruct (nth i z None) as [s|]; cbn; [|easy]. destruct (find_table tb s NT) as (_ & F2). rewrite F2; [easy|]. intros v Iv. apply IT in Iv. now apply (NO s).
Qed.
Lemma default_thm (x : rcol) :
  default_value (real_col x) DNone = Some None /\ (forall v, default_value (real_col x) (DNum v) = Some (Some v)) /\
  default_value (real_col x) (DWord "null") = Some None /\ default_value (real_col x) (DWord "zero") = Some (Some (Fin 0)) /\
  (values x <> [] -> default_value (real_col x) (DWord "mean") = Some (Some (Fin (mean_of (values x))))) /\
  (forall s, s <> "null"%string -> s <> "zero"%string -> s <> "mean"%string -> default_value (real_col x) (DWord s) = None).
Proof.
  split; [easy|]. split; [easy|]. split; [easy|]. split; [easy|]. split.
  - intros V. unfold default_value. change (String.eqb "mean" "null") with false. change (String.eqb "mean" "zero") with false. change (String.eqb "mean" "mean") with true. cbn [orb]. rewrite reals_col. now destruct (values x).
  - intros s A B C. unfold default_value. apply String.eqb_neq in A, B, C. now rewrite A, B, C.
Qed.
Lemma enc_refused table target d f cs : (forall c y, In c cs -> lookup c f <> Some (text_col y)) -> encoder table target d f cs = None.
Proof.
  intros H. unfold encoder. destruct (_ && _); [|easy]. assert (filter (fun c => match lookup c f with Some v => is_text v | None => false end) cs = []) as ->; [|easy].
  induction cs as [|c cs IH]; cbn; [easy|]. destruct (lookup c f) as [v|] eqn:L; [|apply IH; intros; apply H; now right]. destruct (is_text v) eqn:T; [|apply IH; intros; apply H; now right].
  destruct (is_text_col v T) as (y & ->). exfalso. now apply (H c y (or_introl eq_refl)).
Qed.
Lemma map_table {A} (rows : list (@row A)) (f : A -> R) out : is_table rows f out -> is_table rows (fun k => Fin (f k)) (map (fun p => (fst p, Fin (snd p))) out).
Proof.
  intros (N & H). split; [now rewrite map_map|]. intros k v. rewrite in_map_iff. split.
  - intros ((k', r) & E & I). cbn in E. inversion E; subst. apply H in I. destruct I as (O & ->). easy.
  - intros (O & ->). exists (k, f k). split; [easy|]. now apply H.
Qed.
(** ** Linear imputing. *)
Lemma lin_sum_known coeffs (xs : list R) : lin_sum coeffs (map Some xs) = Rsum (map (fun p => fst p * snd p) (combine coeffs xs)).
Proof. revert xs. induction coeffs as [|b bs IH]; intros [|v xs]; cbn; try easy. rewrite IH. lra. Qed.
Lemma nth_map_seq {A} (h : nat -> A) n i d : (i < n)%nat -> nth i (map h (seq 0 n)) d = h i.
Proof. intros H. rewrite (nth_indep _ d (h 0%nat)) by now rewrite map_length, seq_length. rewrite (map_nth h). now rewrite seq_nth. Qed.
Lemma lin_fill coeffs bias features y : length (linear_fill coeffs bias features y) = length y /\
  forall i, (i < length y)%nat ->
    (forall v, nth i y None = Some v -> nth i (linear_fill coeffs bias features y) None = Some v) /\
    (forall xs, nth i y None = None -> map (fun x => nth i x None) features = map Some xs ->
       nth i (linear_fill coeffs bias features y) None = Some (Rsum (map (fun p => fst p * snd p) (combine coeffs xs)) + if bias then last coeffs 0 else 0)).
Proof.
  unfold linear_fill. split; [now rewrite map_length, seq_length|]. intros i Hi. rewrite nth_map_seq by easy. split; [now intros v ->|]. intros xs -> ->. now rewrite lin_sum_known.
Qed.
(** ** In pipelines. *)
Lemma pointwise_rw c out (P : PipeModel.column -> bool) (h : cell -> cell) : (forall v w, P v = true -> P w = true -> P (v ++ w) = true) ->
  rowwise (fun f => match lookup c f with Some v => if P v then Some [(out, map h v)] else None | None => None end).
Proof.
  intros HP f g a b o o' N HF HG E E'. cbn beta in *. destruct (lookup c f) as [v|] eqn:L; [|easy]. destruct (lookup c g) as [w|] eqn:L'; [|easy]. destruct (P v) eqn:Pv; [|easy]. destruct (P w) eqn:Pw; [|easy].
  inversion E; inversion E'; subst. rewrite vs_lookup, L, L' by easy. rewrite HP, map_app by easy. unfold height in *. rewrite Forall_forall in HF, HG. apply lookup_in in L, L'.
  split; [constructor; [cbn; rewrite map_length; now apply (HF _ L)|constructor]|]. split; [constructor; [cbn; rewrite map_length; now apply (HG _ L')|constructor]|]. easy.
Qed.
Lemma text_app v w : is_text v = true -> is_text w = true -> is_text (v ++ w) = true.
Proof. unfold is_text. rewrite forallb_app. now intros -> ->. Qed.
Lemma hot_rw out c u : rowwise (hot_expr out c u).
Proof. apply (pointwise_rw c out is_text). exact text_app. Qed.
Lemma rank_rw c rk i out : rowwise (rank_expr c rk i out).
Proof. apply (pointwise_rw c out (fun v => is_text v && distinct rk)). intros v w A B. apply andb_true_iff in A, B. now rewrite text_app. Qed.
Lemma dict_rw c tb d : rowwise (dict_expr c tb d).
Proof. apply (pointwise_rw c c (fun v => is_text v && distinct (map fst tb))). intros v w A B. apply andb_true_iff in A, B. now rewrite text_app. Qed.
Lemma hot_step sep drop f cs es : one_hot sep drop f cs = Some es -> rowwise_step (WithColumns es).
Proof.
  unfold one_hot. destruct (_ && _); [|easy]. set (l := flat_map _ cs). intros H. assert (es = l) as -> by (destruct l; [easy|]; now inversion H). clear H. cbn. apply Forall_forall. intros e I. unfold l in I. apply in_flat_map in I. destruct I as (c & _ & I).
  destruct (lookup c f); [|easy]. destruct (is_text c0); [|easy]. destruct (Nat.ltb _ _); [|easy]. apply in_map_iff in I. destruct I as (s & <- & _). apply hot_rw.
Qed.
Lemma rank_step c rk es : rank_hot c rk = Some es -> rowwise_step (WithColumns es).
Proof. unfold rank_hot. destruct (Nat.leb _ _); [easy|]. intros H. inversion H; subst. cbn. apply Forall_forall. intros e I. apply in_map_iff in I. destruct I as (p & <- & _). apply rank_rw. Qed.
Lemma enc_dicts table target d f cs es : encoder table target d f cs = Some es -> exists cs' tbs dv, incl cs' cs /\ Forall2 (fun c e => exists tb, e = dict_expr c tb dv) cs' es /\ tbs = length es.
Proof.
  unfold encoder. destruct (_ && _); [|easy]. set (valid := filter _ cs). destruct valid as [|v vs] eqn:EV; [easy|]. rewrite <- EV in *. destruct (lookup target f) as [t|]; [|destruct valid; easy].
  intros H. assert (exists dv x, traverse (fun c => match lookup c f with Some v => option_map (fun tb => dict_expr c tb dv) (table (text_rows v x)) | None => None end) valid = Some es) as (dv & x & T).
  { destruct valid; [easy|]. destruct (default_value t d) as [dv|]; [|easy]. destruct (reals t) as [x|]; [|easy]. eauto. }
  exists valid, (length es), dv. split; [intros c I; now apply filter_In in I|]. split; [|easy]. apply traverse_all in T. eapply forall2_impl; [|exact T]. intros c e E. cbn in E. destruct (lookup c f); [|easy]. destruct (table _); [|easy]. injection E as <-. eauto.
Qed.
Lemma enc_pipes table target d : writes_only (as_func (encoder table target d)) /\ forall f cs es, encoder table target d f cs = Some es -> rowwise_step (WithColumns es).
Proof.
  split.
  - intros f cs es H g o V. cbn in H. destruct (enc_dicts _ _ _ _ _ _ H) as (cs' & _ & dv & SUB & F & _). intros n In_. apply SUB. clear SUB H. revert o V In_. induction F as [|c e cs' es (tb & ->) F IH]; cbn; intros o V In_; [inversion V; now subst|].
    unfold dict_expr at 1 in V. destruct (lookup c g); [|easy]. destruct (_ && _); [|easy]. destruct (evals es g) as [o'|] eqn:EO; [|easy]. inversion V; subst. cbn in In_. destruct In_ as [<-|In_]; [now left|right]. now apply (IH o').
  - intros f cs es H. destruct (enc_dicts _ _ _ _ _ _ H) as (cs' & _ & dv & _ & F & _). cbn. clear H. induction F as [|c e cs' es (tb & ->) F IH]; constructor; [apply dict_rw|easy].
Qed.
Lemma demo_hot : let f := [("x"%string, text_col [Some "b"; None; Some "a"; Some "b"]%string); ("t"%string, real_col [Some 1; Some 0; Some 0; None])] in
  gets_column f ["x"%string] false "x" "a" /\ gets_column f ["x"%string] true "x" "b" /\ Forall (lacks "_") ["x"%string] /\ NoDup ["x"%string] /\ incl ["x"%string] (names f) /\
  (exists es, one_hot "_" false f ["x"%string] = Some es /\ exists g, with_columns es f = Some g /\ lookup "x_a" g = Some [number 0; number 0; number 1; number 0] /\ lookup "x_b" g = Some [number 1; number 0; number 0; number 1]).
Proof.
  intros f. assert (category f "x" "a" /\ category f "x" "b") as (CA & CB). { split; exists [Some "b"; None; Some "a"; Some "b"]%string; (split; [reflexivity|cbn; tauto]). }
  split; [|split; [|split; [|split; [|split]]]].
  - split; [now left|]. split; [easy|]. split; [now exists "b"%string|easy].
  - split; [now left|]. split; [easy|]. split; [now exists "a"%string|]. intros _. exists "a"%string. split; [easy|reflexivity].
  - repeat constructor. easy.
  - repeat constructor. easy.
  - intros c [<-|[]]. now left.
  - eexists. split; [reflexivity|]. eexists. split; [reflexivity|]. split; reflexivity.
Qed.
Lemma demo_poly : let g := [("a"%string, real_col [Some 2; None]); ("b"%string, real_col [Some 3; Some 5])] in let cs := ["a"; "b"]%string in
  NoDup cs /\ Forall (lacks "*") cs /\ (forall c, In c cs -> lookup c g = Some (real_col (if String.eqb c "a" then [Some 2; None] else [Some 3; Some 5])) /\ length (if String.eqb c "a" then [Some 2; None] else [Some 3; Some 5]) = 2%nat) /\
  wanted cs 2 true ["a"; "b"]%string /\ choose (2 + 2 - 1) 2 = 3%nat.
Proof.
  intros g cs. split; [repeat constructor; cbn; intuition easy|]. split; [repeat constructor; easy|]. split; [intros c [<-|[<-|[]]]; split; reflexivity|]. split; [|reflexivity].
  split; [easy|]. split; [exists [0; 1]%nat; repeat constructor|]. intros _. exists "a"%string, "b"%string. cbn. split; [tauto|]. split; [tauto|easy].
Qed.
From Verif Require Import EncProofs.
Lemma demo_enc : let f := [("x"%string, text_col [Some "b"; None; Some "a"; Some "b"]%string); ("t"%string, real_col [Some 1; Some 0; Some 0; None])] in
  lookup "x" f = Some (text_col [Some "b"; None; Some "a"; Some "b"]%string) /\ lookup "t" f = Some (real_col [Some 1; Some 0; Some 0; None]) /\
  group_ok string_dec (group_ref string_dec) /\ targets (combine [Some "b"; None; Some "a"; Some "b"]%string [Some 1; Some 0; Some 0; None]) <> [] /\
  zero_one (combine [Some "b"; None; Some "a"; Some "b"]%string [Some 1; Some 0; Some 0; None]).
Proof.
  intros f. split; [reflexivity|]. split; [reflexivity|]. split; [apply group_ref_ok|]. split; [easy|]. intros k t H. cbn in H. repeat (destruct H as [H|H]; [inversion H; subst; auto|]); easy.
Qed.

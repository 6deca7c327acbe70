(** Centred and scaled columns keep nulls, NaN and infinities. *)
From Coq Require Import Reals String List Lra.
From Verif Require Import MetricSpec WStatsSpec WStatsModel MetricModel WinsModel PipeModel PipeSpec TfmModel TfmSpec TfmProofs.
Import ListNotations.
Open Scope R_scope.

Lemma trav_cells (h : xnum -> xnum) y : traverse (num_cell (fun v => Some (h v))) (num_col y) = Some (num_col (map (option_map h) y)).
Proof. unfold num_col in *. induction y as [|[a|] y IH]; cbn; [reflexivity| |]; now rewrite IH. Qed.
Lemma special_gen (k : string -> column -> option expr) (h : xnum -> xnum) f c v :
  lookup c f = Some v -> k c v = Some (map_expr c (num_cell (fun u => Some (h u)))) ->
  h NaN = NaN -> h PInf = PInf -> h NInf = NInf ->
  exists e, per_column k f [c] = Some [e] /\ forall g y, lookup c g = Some (num_col y) ->
    exists z, e g = Some [(c, z)] /\ length z = length y /\ forall i,
      (nth_error y i = Some None -> nth_error z i = Some Null) /\
      (forall s, s = NaN \/ s = PInf \/ s = NInf -> nth_error y i = Some (Some s) -> nth_error z i = Some (Num s)).
Proof.
  intros L K HN HP HI. exists (map_expr c (num_cell (fun u => Some (h u)))). split.
  - unfold per_column. cbn. now rewrite L, K.
  - intros g y G. exists (num_col (map (option_map h) y)). split; [unfold map_expr; now rewrite G, trav_cells|].
    split; [unfold num_col; now rewrite !map_length|]. intro i. unfold num_col. rewrite !nth_error_map. split.
    + now intros ->.
    + intros s S ->. cbn. destruct S as [->|[->| ->]]; congruence.
Qed.
Lemma min_le_max l : l <> [] -> lmin l <= lmax l.
Proof.
  destruct l as [|a l]; [easy|]. intros _. cbn. assert (G : forall l a b, a <= b -> fold_left Rmin l a <= fold_left Rmax l b); [|apply G; lra].
  clear. induction l as [|c l IH]; cbn; [easy|]. intros a b H. apply IH. apply Rle_trans with c; [apply Rmin_r|apply Rmax_r].
Qed.
Lemma special_values odd T : In T [center odd; scale_standard odd; scale_min_max odd; scale_abs_max odd] ->
  forall f c x, lookup c f = Some (real_col x) -> values x <> [] -> exists e, T f [c] = Some [e] /\
    forall g y, lookup c g = Some (num_col y) -> exists z, e g = Some [(c, z)] /\ length z = length y /\ forall i,
      (nth_error y i = Some None -> nth_error z i = Some Null) /\
      (forall s, s = NaN \/ s = PInf \/ s = NInf -> nth_error y i = Some (Some s) -> nth_error z i = Some (Num s)).
Proof.
  intros I f c x L V. cbn in I. destruct I as [<-|[<-|[<-|[<-|[]]]]].
  - apply (special_gen _ (fun v => xsub v (Fin (mean_of (values x)))) _ _ _ L); try reflexivity. now rewrite stat_real.
  - pose proof (sqrt_pos (pvar (values x))) as S. apply (special_gen _ (fun v => xquot (xsub v (Fin (mean_of (values x)))) (Fin (sqrt (pvar (values x))))) _ _ _ L); try reflexivity; [now rewrite !stat_real| |]; cbn; destruct (Rlt_dec _ 0); try reflexivity; lra.
  - pose proof (min_le_max _ V) as S. apply (special_gen _ (fun v => xquot (xsub v (Fin (lmin (values x)))) (xsub (Fin (lmax (values x))) (Fin (lmin (values x))))) _ _ _ L); try reflexivity; [now rewrite !stat_real| |]; cbn; destruct (Rlt_dec _ 0); try reflexivity; lra.
  - assert (S : 0 <= Rmax (Rabs (lmin (values x))) (Rabs (lmax (values x)))) by (apply Rle_trans with (Rabs (lmin (values x))); [apply Rabs_pos|apply Rmax_l]).
    apply (special_gen _ (fun v => xquot v (Fin (Rmax (Rabs (lmin (values x))) (Rabs (lmax (values x)))))) _ _ _ L); try reflexivity; [now rewrite !stat_real| |]; cbn; destruct (Rlt_dec _ 0); try reflexivity; lra.
Qed.

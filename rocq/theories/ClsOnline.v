(** Proofs for OnlineLR objects restored from their values. *)
From mathcomp Require Import all_ssreflect all_algebra.
From Verif Require Import LinModel LinSpec LinCore LinProofs LinExprSpec LinHist ClsModel ClsSpec ClsProofs.
Set Implicit Arguments.
Unset Strict Implicit.
Import Order.TTheory GRing.Theory Num.Theory.
Local Open Scope ring_scope.

Section Online.
Variable R : realFieldType.
Variable name : eqType.
Variable eps : R.
Hypothesis Heps : 0 <= eps.

Lemma om_eq (b : bool) n n' (v : 'cV[R]_n) (v' : 'cV[R]_n') k (inv : 'M[R]_k) : n = n' ->
  (forall (i : 'I_n) (i' : 'I_n'), i = i' :> nat -> v i 0 = v' i' 0) -> OModel b v inv = OModel b v' inv.
Proof. by move=> E; subst n' => H; have -> // : v = v'; apply/matrixP => i j; rewrite (ord1 j); apply: H. Qed.

Lemma size_part p (b : bool) (w : 'cV[R]_(p + b)) : size (coeffs_part w) = p.
Proof. by rewrite size_map size_enum_ord. Qed.
Lemma nth_part p (b : bool) (w : 'cV[R]_(p + b)) (j : 'I_p) : (coeffs_part w)`_j = w (lshift b j) 0.
Proof. by rewrite (nth_map j 0 (fun j => w (lshift b j) 0)) ?size_enum_ord // nth_ord_enum. Qed.

Lemma restore_ok p (s : online R (p + false)) : restore eps (coeffs_part (o_coef s)) 0 (o_inv s) = Ok (om_of s).
Proof.
rewrite /restore ifF; last by rewrite size_part addn0 eqxx.
rewrite normr0 ltNge Heps /=; congr (Ok _).
apply: om_eq => [|i i' E]; first by rewrite size_part addn0.
rewrite mxE E; case: (split_ordP i') => [j|j] Ei; last by case: j Ei.
by rewrite Ei /= nth_part.
Qed.
Lemma restore_bias p (s : online R (p + true)) v : restore eps (coeffs_part (o_coef s)) v (o_inv s) = Err.
Proof. by rewrite /restore size_part -[X in X != _]addn0 eqn_add2l. Qed.

Lemma restored_getters p (b : bool) (s : online R (p + b)) :
  let m := om_model name (om_of s) in
  is_fit m = Ok true /\ coeffs m = Ok (map Some (coeffs_part (o_coef s))) /\ bias m = Ok (Some (bias_part (o_coef s))).
Proof. exact: (@fitted_getters R _ p b (o_coef s) [::]). Qed.

Lemma o_update_of p (b : bool) (s : online R (p + b)) (r : nrow R p) c :
  o_update (om_of s) r c = Ok (omap (@om_of R p b) (online_update b (Some s) r c)).
Proof.
case: r => [[x y]|] //; rewrite /o_update /om_of /=.
case: eqP => // En.
by rewrite !castmx_id /online_update /=; case: s => inv v /=; case: (woodbury_step _ _ _ _).
Qed.
Lemma o_run_of p (b : bool) (s : online R (p + b)) (cs : seq (nrow R p * R)) :
  o_run (om_of s) cs = Ok (omap (@om_of R p b) (LinExprSpec.run b (Some s) cs)).
Proof.
rewrite /o_run /LinExprSpec.run; elim: cs s => //= c cs IH s; rewrite o_update_of.
case: (online_update b (Some s) c.1 c.2) => [s'|] /=; first exact: IH.
clear IH; elim: cs => //= c' cs ->; congr (Ok _); congr omap.
by case: c' => -[[x y]|] c'.
Qed.

Lemma restored_history (F : faer R) (HF : faer_ok F) lambda (Hl : 0 <= lambda) p
    (d : seq ('rV[R]_p * R)) (cs : seq (nrow R p * R)) d' :
  identifiable (not_bias false) lambda (map fst (design false d)) -> history false lambda d cs d' ->
  let fit := online_fit F false lambda d in
  exists o o' w, restore eps (coeffs_part (o_coef fit)) 0 (o_inv fit) = Ok o /\ o_run o cs = Ok (Some o') /\
    coeffs (om_model name o') = Ok (map Some (coeffs_part w)) /\
    unique_min (ridge_err (not_bias false) lambda (design false d')) w.
Proof.
move=> Hid Hh fit; have [E Hu] := history_refit HF Hl Hid Hh.
exists (om_of fit), (om_of (online_fit F false lambda d')), (o_coef (online_fit F false lambda d')).
rewrite restore_ok o_run_of E; split=> //; split=> //; split=> //.
by have [_ []] := restored_getters (online_fit F false lambda d').
Qed.

Lemma restored_panic (cs : seq R) v (inv : 'M[R]_(size cs)) : eps < `|v| ->
  exists o, restore eps cs v inv = Ok o /\ coeffs (om_model name o) = Ok (map Some cs) /\ bias (om_model name o) = Ok (Some v) /\
  forall p (x : 'rV[R]_p) y c, o_update o (Some (x, y)) c = Panic.
Proof.
move=> Hv; rewrite /restore eqxx Hv; eexists; split; first by [].
have E : [seq Some ((\col_(i < size cs + 1) nth v cs i) i 0) | i <- enum 'I_(size cs + 1)] = rcons (map Some cs) (Some v).
  apply: (@eq_from_nth _ None) => [|i].
    by rewrite size_map size_enum_ord size_rcons size_map addn1.
  rewrite size_map size_enum_ord => Hi.
  rewrite (nth_map (Ordinal Hi)) ?size_enum_ord // mxE -[i]/(nat_of_ord (Ordinal Hi)) nth_ord_enum /=.
  rewrite nth_rcons size_map; case: ltnP => H; first by rewrite (nth_map v).
  rewrite nth_default //; case: eqP => // Hne; exfalso; apply: Hne; apply/eqP; rewrite eqn_leq H andbT.
  by move: Hi; rewrite addn1 ltnS.
split; first by rewrite /om_model /= E /coeffs coefficients_rcons.
split; first by rewrite /om_model /= E bias_rcons.
move=> p x y c; rewrite /o_update /=.
case: eqP => // En; case: eqP => // Ek; exfalso.
by move: En; rewrite {1}Ek -{2}[(p + true)%N]addn0 => /eqP; rewrite eqn_add2l.
Qed.
End Online.

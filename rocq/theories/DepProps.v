(** Property C114: functional dependencies between columns.  Vocabulary: DepSpec.v, InfoSpec.v.
    [groups_ok], [sort_key_ok]: what polars' group_by and sort guarantee. *)
From Coq Require Import String Bool List Arith ZArith Reals Sorted Relations Lia.
From Verif Require Import InfoModel InfoSpec DiaModel DiaSpec DiaProofs DiaProofs2 DepModel DepSpec DepProofs DepProofs2.
Import ListNotations.
Open Scope string_scope.
Open Scope nat_scope.
Open Scope list_scope.

(** infer_dependency: every row is about two usable columns, gives the conditional entropy of the first given the second, which
    is 0 exactly when the second determines the first; rows are sorted; every two usable columns are compared once; every
    dependency has a row with 0 (in the other order only if the columns determine each other). *)
Theorem C114_dependency : forall (V : Type) (veq : forall a b : V, {a = b} + {a <> b}) gb sort_cols sort_out h (f : frame V),
  groups_ok (dpair (ceq veq) (ceq veq)) gb -> sort_key_ok (fun c => INR (n_unique veq c)) sort_cols -> sort_key_ok snd sort_out -> table h f ->
  (exists c, In c f /\ discrete_type (ty c)) ->
  exists rows, infer_dependency veq gb sort_cols sort_out f = Value rows /\
  StronglySorted (fun r s => (snd r <= snd s)%R) rows /\
  (forall a b v, In (a, b, v) rows -> exists x y, usable f x /\ usable f y /\ x <> y /\ name x = a /\ name y = b /\
     v = cond_entropy (ceq veq) (ceq veq) (combine (vals x) (vals y)) /\ (0 <= v)%R /\ (v = 0%R <-> fixes y x)) /\
  (forall x y, usable f x -> usable f y -> x <> y -> exists v, In (name x, name y, v) rows \/ In (name y, name x, v) rows) /\
  (forall x y, usable f x -> usable f y -> x <> y -> fixes y x ->
     In (name x, name y, 0%R) rows \/ In (name y, name x, 0%R) rows /\ fixes x y).
Proof.
  intros V veq gb sc so h f GB SC SO T H.
  exact (ex_intro _ _ (conj (dep_run veq gb sc so SO f H) (conj (dep_sorted veq gb sc so SO f) (conj (dep_sound veq gb sc so GB SC SO h f T)
    (conj (dep_pairs veq gb sc so SC SO f) (dep_complete veq gb sc so GB SC SO h f T)))))).
Qed.
Print Assumptions C114_dependency.
(** plot_dependency: every arrow is a dependency below the threshold, what can be reached along the arrows is what can be reached
    along all dependencies below the threshold, and there are no cycles. *)
Theorem C114_plot : forall (V : Type) (veq : forall a b : V, {a = b} + {a <> b}) gb sort_cols sort_out h (f : frame V) thr,
  sort_key_ok (fun c => INR (n_unique veq c)) sort_cols -> sort_key_ok snd sort_out -> table h f ->
  (exists c, In c f /\ discrete_type (ty c)) ->
  exists rows out, infer_dependency veq gb sort_cols sort_out f = Value rows /\
  plot_dependency veq gb sort_cols sort_out thr f = Value out /\
  (forall p c, In (p, c) out -> exists v, In (c, p, v) rows /\ (v < thr)%R) /\
  (forall p c, path out p c <-> clos_trans _ (fun p c => exists v, In (c, p, v) rows /\ (v < thr)%R) p c) /\
  (forall p c, path out p c -> p <> c).
Proof. intros V veq gb sc so h f thr SC SO T. exact (plot_run veq gb sc so SC SO h f T thr). Qed.
Print Assumptions C114_plot.
(** When everything below the threshold is an exact dependency, an arrow is drawn exactly where no column lies in between. *)
Theorem C114_direct : forall (V : Type) (veq : forall a b : V, {a = b} + {a <> b}) gb sort_cols sort_out h (f : frame V) thr,
  groups_ok (dpair (ceq veq) (ceq veq)) gb -> sort_key_ok (fun c => INR (n_unique veq c)) sort_cols -> sort_key_ok snd sort_out -> table h f ->
  (exists c, In c f /\ discrete_type (ty c)) -> (0 < thr)%R ->
  exists rows out, infer_dependency veq gb sort_cols sort_out f = Value rows /\
  plot_dependency veq gb sort_cols sort_out thr f = Value out /\
  ((forall c p v, In (c, p, v) rows -> (v < thr)%R -> v = 0%R) ->
   forall p c, In (p, c) out <-> In (c, p, 0%R) rows /\ ~ exists q, In (q, p, 0%R) rows /\ In (c, q, 0%R) rows).
Proof. intros V veq gb sc so h f thr GB SC SO T. exact (plot_cover veq gb sc so GB SC SO h f T thr). Qed.
Print Assumptions C114_direct.
(** Without any column of a discrete type both raise (an empty report is documented by the warning). *)
Theorem C114_none_refuted : (forall (V : Type) (veq : forall a b : V, {a = b} + {a <> b}) gb sort_cols sort_out (f : frame V),
  (forall c, In c f -> ~ discrete_type (ty c)) -> infer_dependency veq gb sort_cols sort_out f = Raise) /\
  exists f : frame nat, f <> [] /\ forall c, In c f -> ~ discrete_type (ty c).
Proof.
  split; [intros V veq gb sc so f; exact (dep_none veq gb sc so f)|]. exists [Build_column "x" DFloat [Some 1]]. split; [discriminate|]. intros c [<-|[]] [h|[h|[h|h]]]; discriminate h.
Qed.
Print Assumptions C114_none_refuted.

Definition street := Build_column "street" DStr [Some 1; Some 2; Some 3; None; Some 2].
Definition town := Build_column "town" DInt [Some 7; Some 7; Some 8; Some 9; Some 7].
Definition country := Build_column "country" DCat [Some 1; Some 1; Some 1; Some 2; Some 1].
Definition places : frame nat := [country; street; Build_column "area" DFloat [Some 0; Some 1; Some 2; Some 3; Some 4]; town].
Example C114_case : table 5 places /\ usable places street /\ usable places town /\ fixes street town /\ fixes town country /\ ~ fixes town street /\
  groups_ok (dpair (ceq Nat.eq_dec) (ceq Nat.eq_dec)) (demo_gb (dpair (ceq Nat.eq_dec) (ceq Nat.eq_dec))) /\
  sort_key_ok (fun c => INR (n_unique Nat.eq_dec c)) (ksort (fun c => INR (n_unique Nat.eq_dec c))) /\
  sort_key_ok snd (ksort (fun r : string * string * R => snd r)).
Proof.
  split; [split; [apply has_dup_iff; reflexivity|repeat constructor]|].
  split; [split; [right; now left|split; [right; now left|exists 4; split; [now apply (n_unique_iff Nat.eq_dec)|lia]]]|].
  split; [split; [right; right; right; now left|split; [now left|exists 3; split; [now apply (n_unique_iff Nat.eq_dec)|lia]]]|].
  split; [|split; [|split; [|split; [apply demo_gb_ok|split; apply ksort_ok]]]].
  - intros i j. do 5 (destruct i as [|i]; [do 5 (destruct j as [|j]; [cbn; intros; (reflexivity || congruence || lia)|]); cbn; lia|]). cbn; lia.
  - intros i j. do 5 (destruct i as [|i]; [do 5 (destruct j as [|j]; [cbn; intros; (reflexivity || congruence || lia)|]); cbn; lia|]). cbn; lia.
  - intro F. specialize (F 0 1). cbn in F. assert (E : Some (Some 1) = Some (Some 2)); [apply F; (lia || reflexivity)|discriminate].
Qed.

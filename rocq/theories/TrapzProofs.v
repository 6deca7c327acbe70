From Coq Require Import Bool List ZArith QArith Qabs Lia Lqa Arith Setoid.
From Verif Require Import TrapzModel TrapzSpec.
Import ListNotations.
Open Scope Q_scope.

Definition inner (pts : list (Q * Q)) : Q :=
  qdot (zipw Qplus (tl (map snd pts)) (removelast (map snd pts)))
       (zipw Qminus (tl (map fst pts)) (removelast (map fst pts))).
Lemma inner_cons p q r pts : inner (p :: q :: r :: pts) = (snd q + snd p) * (fst q - fst p) + inner (q :: r :: pts).
Proof. reflexivity. Qed.
Lemma trapezoids_cons p q pts : trapezoids (p :: q :: pts) = (fst q - fst p) * (snd p + snd q) / (2 # 1) + trapezoids (q :: pts).
Proof. reflexivity. Qed.
Lemma inner_ok pts : forall p q, (1 # 2) * inner (p :: q :: pts) == trapezoids (p :: q :: pts).
Proof.
  induction pts as [|r pts IH]; intros p q.
  - unfold inner, qdot. cbn [map tl removelast zipw fold_right trapezoids]. field.
  - rewrite inner_cons, trapezoids_cons, <- IH. field.
Qed.
Lemma trapz_sum (pts : list (Q * Q)) : (2 <= length pts)%nat ->
  trapz (map snd pts) (map fst pts) == trapezoids pts.
Proof. destruct pts as [|p [|q pts]]; cbn [length]; intros L; try lia. apply inner_ok. Qed.

(** Spec-level algebra. *)
Lemma trapezoids_app l1 p l2 : trapezoids (l1 ++ p :: l2) == trapezoids (l1 ++ [p]) + trapezoids (p :: l2).
Proof.
  induction l1 as [|a l1 IH]; [cbn [app]; cbn [trapezoids]; destruct l2; ring|].
  destruct l1 as [|b l1].
  - cbn [app] in *. rewrite trapezoids_cons. cbn [trapezoids]. destruct l2; ring.
  - cbn [app] in *. rewrite !trapezoids_cons, IH. ring.
Qed.
Lemma trapezoids_rev l : trapezoids (rev l) == - trapezoids l.
Proof.
  induction l as [|a l IH]; [reflexivity|]. destruct l as [|b l]; [reflexivity|].
  rewrite trapezoids_cons. cbn [rev] in *. rewrite <- app_assoc. cbn [app].
  rewrite trapezoids_app, IH. cbn [trapezoids]. field.
Qed.
(** Exactness on affine data. *)
Definition square_diff (a b x0 x1 : Q) : Q := a * (x1 * x1 - x0 * x0) / (2 # 1) + b * (x1 - x0).
Lemma trapezoids_affine a b l : forall x0,
  trapezoids (map (fun x => (x, a * x + b)) (x0 :: l)) == square_diff a b x0 (last l x0).
Proof.
  induction l as [|x1 l IH]; intros x0.
  - cbn [map trapezoids last]. unfold square_diff. field.
  - cbn [map]. rewrite trapezoids_cons. cbn [map] in IH. rewrite (IH x1). cbn [fst snd].
    assert (E : last (x1 :: l) x0 = last l x1).
    { clear. revert x1 x0. induction l as [|c l IH]; intros; [reflexivity|]. cbn [last] in *. destruct l; [reflexivity|]. apply IH. }
    rewrite E. unfold square_diff. field.
Qed.

Lemma hd_snoc (a b : Q) l : last (a :: l) b = last l a.
Proof. revert a b. induction l as [|c l IH]; intros; [reflexivity|]. change (last (a :: c :: l) b) with (last (c :: l) b). rewrite IH. now rewrite IH. Qed.
Lemma sum_last y0 l : fold_right Qplus 0 (removelast (y0 :: l)) + last l y0 == fold_right Qplus 0 (y0 :: l).
Proof.
  revert y0. induction l as [|a l IH]; intros y0; [cbn; ring|].
  change (removelast (y0 :: a :: l)) with (y0 :: removelast (a :: l)). cbn [fold_right] in *.
  rewrite hd_snoc. rewrite <- Qplus_assoc, IH. ring.
Qed.
(** A uniform spacing is the rule on the grid 0, dx, 2dx, ... *)
Lemma trapz_dx_sum y0 l dx : l <> [] -> trapz_dx (y0 :: l) dx == trapezoids (combine (grid dx (length (y0 :: l))) (y0 :: l)).
Proof.
  intros N.
  assert (G : forall l y0 k, trapezoids (combine (map (fun i => inject_Z (Z.of_nat i) * dx) (seq k (length (y0 :: l)))) (y0 :: l))
    == dx * (fold_right Qplus 0 l + (1 # 2) * (y0 - last l y0))).
  { clear. induction l as [|a l IH]; intros y0 k.
    - cbn [length seq map combine trapezoids fold_right last]. ring.
    - cbn [length seq map combine] in *. rewrite trapezoids_cons. cbn [fst snd]. rewrite (IH a (S k)).
      rewrite hd_snoc. cbn [fold_right]. rewrite Nat2Z.inj_succ, <- Z.add_1_l, inject_Z_plus. field. }
  unfold grid. rewrite G. unfold trapz_dx. cbn [tl hd]. rewrite hd_snoc.
  destruct l as [|a l]; [contradiction|]. pose proof (sum_last a l) as S. rewrite hd_snoc. 
  set (A := fold_right Qplus 0 (removelast (a :: l))) in *. set (B := fold_right Qplus 0 (a :: l)) in *.
  rewrite <- S. field.
Qed.

Lemma has_null_map {A} (l : list A) : has_null (map Some l) = false.
Proof. induction l; [reflexivity|exact IHl]. Qed.
Lemma flat_map_some {A} (l : list A) : flat (map Some l) = l.
Proof. induction l as [|a l IH]; [reflexivity|]. change (flat (map Some (a :: l))) with (a :: flat (map Some l)). now rewrite IH. Qed.

Theorem pl_trapz_points pts : (2 <= length pts)%nat ->
  exists q, pl_trapz (map (fun p => Some (snd p)) pts) (map (fun p => Some (fst p)) pts) = TVal q /\ q == trapezoids pts.
Proof.
  intros L. exists (trapz (map snd pts) (map fst pts)). split; [|now apply trapz_sum].
  rewrite <- (map_map snd Some), <- (map_map fst Some). unfold pl_trapz. rewrite !map_length, !has_null_map.
  rewrite (proj2 (Nat.ltb_ge _ _)) by lia. cbn [orb].
  assert (E : (length pts =? 1)%nat = false) by (apply Nat.eqb_neq; lia).
  rewrite E. cbn [andb]. rewrite Nat.eqb_refl, !flat_map_some. reflexivity.
Qed.
Theorem pl_trapz_uniform y dx : (2 <= length y)%nat ->
  exists q, integrate_trapz_dx (map Some y) dx = TVal q /\ q == trapezoids (combine (grid (Qabs dx) (length y)) y).
Proof.
  intros L. destruct y as [|y0 l]; [cbn in L; lia|].
  exists (trapz_dx (y0 :: l) (Qabs dx)). split.
  - unfold integrate_trapz_dx, pl_trapz. rewrite has_null_map, map_length.
    rewrite (proj2 (Nat.ltb_ge _ _)) by lia. cbn [has_null existsb orb length Nat.eqb].
    rewrite (proj2 (Nat.ltb_lt _ _)) by (cbn in L |- *; lia). cbn [andb]. rewrite flat_map_some. reflexivity.
  - apply trapz_dx_sum. destruct l; [cbn in L; lia|discriminate].
Qed.

(** Proofs for C114: infer_dependency. *)
From Coq Require Import String Bool List Arith ZArith Reals Permutation Sorted Relations Lia Lra.
From Verif Require Import InfoModel InfoSpec InfoProofs InfoPropsLemmas DiaModel DiaSpec DiaProofs DepModel DepSpec.
Import ListNotations.
Open Scope nat_scope.
Open Scope list_scope.

Section Count.
Context {A B : Type} (da : forall a b : A, {a = b} + {a <> b}) (db : forall a b : B, {a = b} + {a <> b}).
(** If the second column determines the first it has at least as many values; with equally many it is determined in turn. *)
Lemma fewer (rows : list (A * B)) n m : determines rows -> distinct (map fst rows) n -> distinct (map snd rows) m ->
  n <= m /\ (n = m -> forall x y y', In (x, y) rows -> In (x, y') rows -> y = y').
Proof.
  intros D (sx & Nx & Ix & <-) (sy & Ny & Iy & <-).
  set (g := fun y => match find (fun r => if db (snd r) y then true else false) rows with Some r => [fst r] | None => [] end).
  assert (G : forall x y, In (x, y) rows -> g y = [x]).
  { intros x y I. unfold g. destruct (find _ rows) as [r|] eqn:E.
    - apply find_some in E. destruct E as [J K]. destruct (db (snd r) y) as [<-|]; [|discriminate]. f_equal. apply (D _ _ (snd r)); [destruct r; exact J|exact I].
    - exfalso. apply (find_none _ _ E) in I. cbn in I. destruct (db y y); easy. }
  set (im := flat_map g sy).
  assert (L : length im = length sy).
  { unfold im. assert (K : forall y, In y sy -> length (g y) = 1).
    { intros y J. apply Iy in J. apply in_map_iff in J. destruct J as ([x y'] & E & J). cbn in E. subst. now rewrite (G x y). }
    clearbody g. clear - K. induction sy as [|y sy IH]; cbn; [easy|]. rewrite app_length, (K y (or_introl eq_refl)), IH; [easy|]. intros; apply K; now right. }
  assert (Inc : incl sx im).
  { intros x J. apply Ix in J. apply in_map_iff in J. destruct J as ([x' y] & E & J). cbn in E. subst. unfold im. apply in_flat_map. exists y. split.
    - apply Iy. apply in_map_iff. exists (x, y). easy.
    - rewrite (G x y J). now left. }
  pose proof (NoDup_incl_length Nx Inc) as Le. rewrite L in Le. split; [easy|]. intros E x y y' I I'.
  assert (Nim : NoDup im). { apply (NoDup_incl_NoDup Nx); [lia|easy]. }
  assert (Y : In y sy) by (apply Iy, in_map_iff; exists (x, y); easy). assert (Y' : In y' sy) by (apply Iy, in_map_iff; exists (x, y'); easy).
  destruct (db y y') as [e|ne]; [exact e|exfalso].
  assert (Z : ~ NoDup im); [|tauto]. clear - G I I' Y Y' ne. unfold im. intro N. apply in_split in Y. destruct Y as (a & b & ->).
  rewrite flat_map_app in N. cbn in N. rewrite (G x y I) in N. cbn in N. apply NoDup_remove_2 in N. apply N. rewrite <- flat_map_app. apply in_flat_map.
  exists y'. split; [|rewrite (G x y' I'); now left]. apply in_app_iff in Y'. apply in_app_iff. cbn in Y'. intuition congruence.
Qed.
End Count.

Lemma nth_combine {A B} (a : list A) (b : list B) i : length a = length b -> nth_error (combine a b) i =
  match nth_error a i, nth_error b i with Some x, Some y => Some (x, y) | _, _ => None end.
Proof.
  revert b i. induction a as [|x a IH]; intros [|y b] i H; cbn in *; try easy; destruct i; cbn; try easy. apply IH. lia.
Qed.
Lemma map_fst_combine {A B} (a : list A) : forall (b : list B), length a = length b -> map fst (combine a b) = a.
Proof. induction a as [|x a IH]; intros [|y b] H; cbn in *; try easy. f_equal. apply IH. lia. Qed.
Lemma map_snd_combine {A B} (a : list A) : forall (b : list B), length a = length b -> map snd (combine a b) = b.
Proof. induction a as [|x a IH]; intros [|y b] H; cbn in *; try easy. f_equal. apply IH. lia. Qed.
Lemma fixes_determines {V} (p c : column V) : length (vals p) = length (vals c) -> (fixes p c <-> determines (combine (vals c) (vals p))).
Proof.
  intro L. split.
  - intros F x x' y I J. apply In_nth_error in I. apply In_nth_error in J. destruct I as [i I], J as [j J]. rewrite nth_combine in I, J by easy.
    destruct (nth_error (vals c) i) as [a|] eqn:Ci; [|easy]. destruct (nth_error (vals p) i) as [b|] eqn:Pi; [|easy]. injection I as -> ->.
    destruct (nth_error (vals c) j) as [a|] eqn:Cj; [|easy]. destruct (nth_error (vals p) j) as [b|] eqn:Pj; [|easy]. injection J as -> ->.
    specialize (F i j). rewrite Ci, Cj, Pi, Pj in F. assert (E : Some x = Some x'); [apply F; auto; apply nth_error_Some; congruence|now injection E].
  - intros D i j Li Lj E. destruct (nth_error (vals c) i) as [x|] eqn:Ci; [|apply nth_error_None in Ci; lia]. destruct (nth_error (vals c) j) as [x'|] eqn:Cj; [|apply nth_error_None in Cj; lia].
    destruct (nth_error (vals p) i) as [y|] eqn:Pi; [|apply nth_error_None in Pi; lia]. f_equal. apply (D x x' y).
    + apply (nth_error_In _ i). now rewrite nth_combine, Ci, Pi.
    + apply (nth_error_In _ j). now rewrite nth_combine, Cj, <- E.
Qed.
Lemma fixes_trans {V} (p q c : column V) : length (vals q) = length (vals c) -> fixes p q -> fixes q c -> fixes p c.
Proof. intros L F G i j Li Lj E. apply G; auto. apply F; rewrite ?L; auto. Qed.

Lemma pairs_In {A} (l : list A) x y : In (x, y) (pairs l) <-> exists a b c, l = a ++ x :: b ++ y :: c.
Proof.
  induction l as [|z l IH]; cbn.
  - split; [easy|]. intros (a & b & c & E). destruct a; discriminate.
  - rewrite in_app_iff, IH, in_map_iff. split.
    + intros [(w & E & I)|(a & b & c & ->)].
      * injection E as -> ->. apply in_split in I. destruct I as (b & c & ->). now exists [], b, c.
      * now exists (z :: a), b, c.
    + intros (a & b & c & E). destruct a as [|w a]; cbn in E; injection E as -> ->.
      * left. exists y. split; [easy|]. apply in_app_iff. right. now left.
      * right. now exists a, b, c.
Qed.
Lemma pairs_sorted {A} (R : A -> A -> Prop) l x y : StronglySorted R l -> In (x, y) (pairs l) -> R x y.
Proof.
  intros S I. apply pairs_In in I. destruct I as (a & b & c & ->). induction a as [|z a IH]; cbn in S.
  - inversion S as [|? ? _ F]; subst. rewrite Forall_forall in F. apply F. apply in_app_iff. right. now left.
  - inversion S; subst. auto.
Qed.
Lemma pairs_either {A} (l : list A) x y : In x l -> In y l -> x <> y -> In (x, y) (pairs l) \/ In (y, x) (pairs l).
Proof.
  intros I J N. apply in_split in I. destruct I as (a & b & ->). apply in_app_iff in J. cbn in J. destruct J as [J|[J|J]]; [|easy|].
  - right. apply pairs_In. apply in_split in J. destruct J as (a1 & a2 & ->). exists a1, a2, b. now rewrite <- app_assoc.
  - left. apply pairs_In. apply in_split in J. destruct J as (b1 & b2 & ->). now exists a, b1, b2.
Qed.

Lemma valid_iff t : valid t = true <-> discrete_type t.
Proof. unfold discrete_type. destruct t; cbn; intuition discriminate. Qed.
Section Dep.
Context {V : Type} (veq : forall a b : V, {a = b} + {a <> b}).
Notation ce := (ceq veq).
Variable gb : list (option V * option V) -> list ((option V * option V) * nat).
Variable sort_cols : list (column V) -> list (column V).
Variable sort_out : list (string * string * R) -> list (string * string * R).
Hypothesis GB : groups_ok (dpair ce ce) gb.
Hypothesis SC : sort_key_ok (fun c => INR (n_unique veq c)) sort_cols.
Hypothesis SO : sort_key_ok snd sort_out.
Context (h : nat) (f : frame V).
Hypothesis T : table h f.
Notation check := (to_check veq sort_cols f).
Notation rows x y := (combine (vals x) (vals y)).

Lemma check_In c : In c check <-> usable f c.
Proof.
  unfold to_check, usable. destruct (SC (filter (fun c => Nat.ltb 1 (n_unique veq c)) (filter (fun c => valid (ty c)) f))) as [P _].
  split.
  - intro I. apply (Permutation_in _ P) in I. apply filter_In in I. destruct I as [I K]. apply filter_In in I. destruct I as [I L]. apply Nat.ltb_lt in K.
    split; [easy|]. split; [now apply valid_iff|]. exists (n_unique veq c). split; [apply n_unique_distinct|easy].
  - intros (I & L & n & D & K). apply valid_iff in L. apply (Permutation_in _ (Permutation_sym P)). apply filter_In. split; [now apply filter_In|]. apply Nat.ltb_lt.
    now rewrite (proj2 (n_unique_iff veq c n) D).
Qed.
Lemma check_sorted x y : In (x, y) (pairs check) -> n_unique veq x <= n_unique veq y.
Proof. intro I. destruct (SC (filter (fun c => Nat.ltb 1 (n_unique veq c)) (filter (fun c => valid (ty c)) f))) as [_ S]. apply INR_le. apply (pairs_sorted _ _ _ _ S I). Qed.
Lemma name_inj x y : In x f -> In y f -> name x = name y -> x = y.
Proof.
  destruct T as [N _]. clear - N. intros I J E. induction f as [|e g IH]; [destruct I|]. cbn in N. inversion N as [|? ? N1 N2]; subst.
  destruct I as [->|I], J as [->|J]; auto; destruct N1; [rewrite E|rewrite <- E]; now apply in_map.
Qed.
Lemma height x : In x f -> length (vals x) = h.
Proof. destruct T as [_ F]. rewrite Forall_forall in F. apply F. Qed.
Lemma check_nodup : NoDup check.
Proof.
  unfold to_check. match goal with |- NoDup (_ ?l) => destruct (SC l) as [P _]; apply (Permutation_NoDup (Permutation_sym P)) end.
  do 2 apply NoDup_filter. destruct T as [N _]. now apply NoDup_map_inv in N.
Qed.
Definition dep_rows := sort_out (map (fun p => (name (fst p), name (snd p), Rabs (pl_conditional_entropy ce gb (rows (fst p) (snd p))))) (pairs check)).
Lemma dep_value x y : usable f x -> usable f y -> rows x y <> [] /\ (0 <= pl_conditional_entropy ce gb (rows x y))%R /\
  pl_conditional_entropy ce gb (rows x y) = cond_entropy ce ce (rows x y) /\ (pl_conditional_entropy ce gb (rows x y) = 0%R <-> fixes y x).
Proof.
  intros (Ix & _ & n & D & K) (Iy & _). pose proof (height x Ix) as Hx. pose proof (height y Iy) as Hy.
  assert (NE : rows x y <> []).
  { destruct (vals x) as [|a l] eqn:E; [|destruct (vals y) eqn:E'; [rewrite <- Hx in Hy; discriminate|discriminate]].
    destruct D as ([|s0 s] & _ & I & L); [cbn in L; lia|]. exfalso. apply (proj1 (I s0)). now left. }
  destruct (cond_thm ce ce gb (rows x y) GB NE) as (E & _ & (P & _) & Z & _). split; [easy|]. split; [easy|]. split; [easy|].
  rewrite Z. symmetry. apply fixes_determines. congruence.
Qed.
Lemma dep_rows_In a b v : In (a, b, v) dep_rows <-> exists x y, In (x, y) (pairs check) /\ a = name x /\ b = name y /\ v = Rabs (pl_conditional_entropy ce gb (rows x y)).
Proof.
  unfold dep_rows. match goal with |- In _ (_ ?l) <-> _ => destruct (SO l) as [P _] end. split.
  - intro I. apply (Permutation_in _ P) in I. apply in_map_iff in I. destruct I as ([x y] & E & I). injection E as <- <- <-. now exists x, y.
  - intros (x & y & I & -> & -> & ->). apply (Permutation_in _ (Permutation_sym P)). apply in_map_iff. now exists (x, y).
Qed.
Lemma dep_sorted : StronglySorted (fun r s => (snd r <= snd s)%R) dep_rows.
Proof. apply SO. Qed.
Lemma pairs_ends {A} (l : list A) x y : In (x, y) (pairs l) -> In x l /\ In y l.
Proof. intro I. apply pairs_In in I. destruct I as (a & b & c & ->). split; apply in_app_iff; right; [now left|]. right. apply in_app_iff. right. now left. Qed.
Lemma dep_run : (exists c, In c f /\ discrete_type (ty c)) -> infer_dependency veq gb sort_cols sort_out f = Value dep_rows.
Proof.
  intros (c & I & K). apply valid_iff in K. unfold infer_dependency. destruct (Nat.eqb_spec (length (filter (fun c => valid (ty c)) f)) 0) as [E|E].
  { apply length_zero_iff_nil in E. assert (J : In c (filter (fun c => valid (ty c)) f)) by now apply filter_In. rewrite E in J. destruct J. }
  destruct (Nat.leb_spec (length check) 1) as [L|L]; [|reflexivity]. unfold dep_rows. destruct check as [|x [|y r]]; cbn in L; try lia; cbn [pairs map app].
  - destruct (SO []) as [P _]. apply Permutation_sym, Permutation_nil in P. now rewrite P.
  - destruct (SO []) as [P _]. apply Permutation_sym, Permutation_nil in P. now rewrite P.
Qed.
Lemma dep_none : (forall c, In c f -> ~ discrete_type (ty c)) -> infer_dependency veq gb sort_cols sort_out f = Raise.
Proof.
  intro H. unfold infer_dependency. replace (filter (fun c => valid (ty c)) f) with (@nil (column V)); [easy|]. clear - H.
  induction f as [|c g IH]; [easy|]. cbn. destruct (valid (ty c)) eqn:E; [apply valid_iff in E; destruct (H c (or_introl eq_refl) E)|]. apply IH. intros; apply H; now right.
Qed.
(** What a row says. *)
Lemma dep_sound a b v : In (a, b, v) dep_rows -> exists x y, usable f x /\ usable f y /\ x <> y /\ name x = a /\ name y = b /\
  v = cond_entropy ce ce (rows x y) /\ (0 <= v)%R /\ (v = 0%R <-> fixes y x).
Proof.
  intro I. apply dep_rows_In in I. destruct I as (x & y & I & -> & -> & ->). pose proof (pairs_ends _ _ _ I) as [A B]. rewrite check_In in A, B.
  exists x, y. destruct (dep_value x y A B) as (_ & P & E & Z). rewrite Rabs_pos_eq by easy. repeat split; auto; try apply A; try apply B; try apply Z.
  intros ->. apply pairs_In in I. destruct I as (l1 & l2 & l3 & E'). pose proof check_nodup as N. rewrite E' in N. apply NoDup_remove_2 in N. apply N.
  apply in_app_iff. right. apply in_app_iff. right. now left.
Qed.
(** Every pair of usable columns has a row, in one order. *)
Lemma dep_pairs x y : usable f x -> usable f y -> x <> y -> exists v, In (name x, name y, v) dep_rows \/ In (name y, name x, v) dep_rows.
Proof.
  intros A B N. rewrite <- check_In in A, B. destruct (pairs_either _ _ _ A B N) as [I|I]; eexists; [left|right]; apply dep_rows_In; eauto 6.
Qed.
(** Every dependency is found. *)
Lemma dep_complete x y : usable f x -> usable f y -> x <> y -> fixes y x ->
  In (name x, name y, 0%R) dep_rows \/ In (name y, name x, 0%R) dep_rows /\ fixes x y.
Proof.
  intros A B N F. pose proof A as A'. pose proof B as B'. rewrite <- check_In in A', B'.
  assert (Val0 : forall x y, usable f x -> usable f y -> In (x, y) (pairs check) -> fixes y x -> In (name x, name y, 0%R) dep_rows).
  { clear x y A B N F A' B'. intros x y A B I F. apply dep_rows_In. exists x, y. repeat split; auto. destruct (dep_value x y A B) as (_ & P & E & Z). apply Z in F. now rewrite F, Rabs_R0. }
  destruct (pairs_either _ _ _ A' B' N) as [I|I]; [left; now apply Val0|right].
  assert (Lx : length (vals x) = length (vals y)) by (rewrite (height x), (height y); [easy|apply B|apply A]).
  assert (G : fixes x y); [|split; [now apply Val0|easy]].
  pose proof (proj1 (fixes_determines y x (eq_sym Lx)) F) as D.
  assert (Dx : distinct (map fst (rows x y)) (n_unique veq x)) by (rewrite map_fst_combine by easy; apply n_unique_distinct).
  assert (Dy : distinct (map snd (rows x y)) (n_unique veq y)) by (rewrite map_snd_combine by easy; apply n_unique_distinct).
  destruct (fewer ce (rows x y) _ _ D Dx Dy) as [Le Eq]. pose proof (check_sorted _ _ I). specialize (Eq ltac:(lia)).
  apply fixes_determines; [easy|]. intros u u' w Iu Iu'.
  assert (SW : forall (a b : list (option V)) u w, In (u, w) (combine b a) -> In (w, u) (combine a b)).
  { clear. induction a as [|p a IH]; intros [|q b] u w; cbn; try tauto. intros [E|I]; [injection E as -> ->; now left|right; now apply IH]. }
  apply SW in Iu, Iu'. exact (Eq w u u' Iu Iu').
Qed.
End Dep.

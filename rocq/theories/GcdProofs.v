From Coq Require Import ZArith List Lia Znumtheory Bool.
From Verif Require Import GcdSpec GcdModel.
Import ListNotations.
Open Scope Z_scope.

Lemma wrap_id z : fits32 z -> wrap32 z = z.
Proof. unfold fits32, i32_min, i32_max, wrap32. intro H. rewrite Z.mod_small; lia. Qed.
Lemma cast_ok x : col32 x -> cast32 x = Some x.
Proof.
  induction x as [|[z|] x IH]; intro H; cbn [cast32]; [easy| |].
  - rewrite IH by (intros y I; apply H; now right). destruct (H z (or_introl eq_refl)). destruct (Z.leb_spec i32_min z); [|lia]. destruct (Z.leb_spec z i32_max); [easy|lia].
  - rewrite IH; [easy|]. intros y I. apply H. now right.
Qed.
Lemma cast_bad x : ~ col32 x -> cast32 x = None.
Proof.
  induction x as [|[z|] x IH]; intro H; cbn [cast32].
  - destruct H. intros y [].
  - destruct (Z.leb_spec i32_min z); [|easy]. destruct (Z.leb_spec z i32_max); [|easy]. rewrite IH; [easy|]. intro C. apply H. intros y [E|I]; [injection E as <-; now split|now apply C].
  - rewrite IH; [easy|]. intro C. apply H. intros y [E|I]; [easy|now apply C].
Qed.
Lemma gcd_pos a b : fits32 a -> fits32 b -> ~ (Z.gcd a b = 2 ^ 31) -> gcd_i32 a b = Z.gcd a b /\ 0 <= Z.gcd a b <= i32_max.
Proof.
  intros A B N. assert (L : Z.gcd a b <= 2 ^ 31).
  { destruct (Z.eq_dec a 0) as [->|NA].
    - rewrite Z.gcd_0_l. unfold fits32, i32_min, i32_max in B. lia.
    - transitivity (Z.abs a); [|unfold fits32, i32_min, i32_max in A; lia]. apply Z.divide_pos_le; [lia|]. apply Z.divide_abs_r, Z.gcd_divide_l. }
  pose proof (Z.gcd_nonneg a b). unfold gcd_i32, i32_max. split; [|lia]. apply wrap_id. unfold fits32, i32_min, i32_max. lia.
Qed.
Lemma gcd_is a b : is_gcd a b (Z.gcd a b).
Proof. repeat split; [apply Z.gcd_nonneg|apply Z.gcd_divide_l|apply Z.gcd_divide_r|]. intros d H1 H2. now apply Z.gcd_greatest. Qed.
Lemma lcm_is a b : is_lcm a b (Z.lcm a b).
Proof. repeat split; [apply Z.lcm_nonneg|apply Z.divide_lcm_l|apply Z.divide_lcm_r|]. intros d H1 H2. now apply Z.lcm_least. Qed.
Lemma lcm_eq a b : fits32 a -> fits32 b -> Z.lcm a b <= i32_max -> ~ (Z.gcd a b = 2 ^ 31) -> lcm_i32 a b = Z.lcm a b.
Proof.
  intros A B L N. unfold lcm_i32. destruct (Z.eqb_spec a 0) as [EA|NA]; cbn [andb].
  - subst a. destruct (Z.eqb_spec b 0) as [->|NB]; [easy|]. rewrite Z.lcm_0_l. reflexivity.
  - destruct (gcd_pos a b A B N) as [-> G]. assert (GP : 0 < Z.gcd a b) by (destruct (Z.eq_dec (Z.gcd a b) 0) as [E|]; [apply Z.gcd_eq_0_l in E; lia|lia]).
    assert (Q : Z.quot b (Z.gcd a b) = b / Z.gcd a b).
    { destruct (Z.gcd_divide_r a b) as [c E]. rewrite E at 1 3. rewrite Z.quot_mul, Z.div_mul by lia. reflexivity. }
    rewrite Q. unfold Z.lcm in *. set (p := a * (b / Z.gcd a b)) in *. rewrite (wrap_id p); [|unfold fits32, i32_min, i32_max in *; lia]. apply wrap_id. unfold fits32, i32_min, i32_max in *. lia.
Qed.
Lemma nth_binary f x y i : length x = length y -> nth i (binary_values f x y) None = match nth i x None, nth i y None with Some a, Some b => Some (f a b) | _, _ => None end.
Proof.
  revert y i. induction x as [|a x IH]; intros [|b y] [|i] L; try easy; cbn; [injection L as L; now apply IH].
Qed.
Lemma binary_len f x y : length x = length y -> length (binary_values f x y) = length x.
Proof. intro L. unfold binary_values. rewrite map_length, combine_length. lia. Qed.
Lemma col_thm f (P : Z -> Z -> Z -> Prop) x y : col32 x -> col32 y -> length x = length y -> (length x = 1%nat -> ~ In None y) ->
  (forall a b, fits32 a -> fits32 b -> (exists i, nth i x None = Some a /\ nth i y None = Some b) -> P a b (f a b)) ->
  exists out, call f x (Col y) = Ok out /\ rowwise P x y out.
Proof.
  intros X Y L N H. unfold call. rewrite (cast_ok x X), (cast_ok y Y). 
  assert (E : pl_binary f x y = Ok (binary_values f x y)).
  { unfold pl_binary. destruct y as [|[b|] [|c y]]; cbn [length] in L; try (now rewrite L, Nat.eqb_refl).
    - destruct x as [|[a|] [|a' x]]; try easy.
    - exfalso. apply (N L). now left. }
  exists (binary_values f x y). split; [exact E|]. split; [now apply binary_len|]. intros i I. rewrite (nth_binary f x y i L). destruct (nth i x None) as [a|] eqn:EA; [|easy]. destruct (nth i y None) as [b|] eqn:EB; [|easy]. exists (f a b). split; [easy|]. apply H.
  - apply X. rewrite <- EA. now apply nth_In.
  - apply Y. rewrite <- EB. apply nth_In. lia.
  - now exists i.
Qed.
Lemma lit_thm f (P : Z -> Z -> Z -> Prop) x b : col32 x -> fits32 b -> (forall a, fits32 a -> In (Some a) x -> P a b (f a b)) ->
  exists out, call f x (Lit b) = Ok out /\ rowwise P x (repeat (Some b) (length x)) out.
Proof.
  intros X B H. unfold call. rewrite (cast_ok x X), (cast_ok [Some b]) by (intros z [E|[]]; now injection E as <-). cbn [pl_binary]. exists (apply_values (fun a => f a b) x). split; [easy|].
  split; [apply map_length|]. intros i I. rewrite (nth_indep (repeat (Some b) (length x)) None (Some b)) by now rewrite repeat_length. rewrite nth_repeat. unfold apply_values.
  change (@None Z) with (option_map (fun a => f a b) None) at 2 3. rewrite map_nth. destruct (nth i x None) as [a|] eqn:E; [|easy]. exists (f a b). split; [easy|]. assert (J : In (Some a) x) by (rewrite <- E; now apply nth_In). apply H; [now apply X|exact J].
Qed.
Definition ok_gcd (a b : Z) : Prop := Z.gcd a b <> 2 ^ 31.
Lemma min_gcd a b : fits32 a -> fits32 b -> (Z.gcd a b = 2 ^ 31 <-> (a = i32_min /\ (b = 0 \/ b = i32_min)) \/ (a = 0 /\ b = i32_min)).
Proof.
  intros A B. split.
  - intro E. assert (DA : (2 ^ 31 | a)) by (rewrite <- E; apply Z.gcd_divide_l). assert (DB : (2 ^ 31 | b)) by (rewrite <- E; apply Z.gcd_divide_r).
    destruct DA as [u U]. destruct DB as [v V]. unfold fits32, i32_min, i32_max in *. assert (a = 0 \/ a = - 2 ^ 31) by nia. assert (b = 0 \/ b = - 2 ^ 31) by nia.
    destruct H as [->| ->]; destruct H0 as [->| ->]; auto. cbn in E. lia.
  - intros [[-> [->| ->]]|[-> ->]]; reflexivity.
Qed.
Lemma gcd_col x y : col32 x -> col32 y -> length x = length y -> (length x = 1%nat -> ~ In None y) -> ~ In (Some i32_min) x -> ~ In (Some i32_min) y ->
  exists out, gcd x (Col y) = Ok out /\ rowwise is_gcd x y out.
Proof.
  intros X Y L N MX MY. apply col_thm; try assumption. intros a b A B [i [EA EB]]. assert (G : Z.gcd a b <> 2 ^ 31).
  { rewrite (min_gcd a b A B). intros [[-> _]|[_ ->]].
    - apply MX. rewrite <- EA. apply nth_In. destruct (Nat.lt_ge_cases i (length x)); [easy|]. rewrite nth_overflow in EA by easy. easy.
    - apply MY. rewrite <- EB. apply nth_In. destruct (Nat.lt_ge_cases i (length y)); [easy|]. rewrite nth_overflow in EB by easy. easy. }
  destruct (gcd_pos a b A B G) as [-> _]. apply gcd_is.
Qed.
Lemma gcd_lit x b : col32 x -> fits32 b -> b <> i32_min -> (b = 0 -> ~ In (Some i32_min) x) ->
  exists out, gcd x (Lit b) = Ok out /\ rowwise is_gcd x (repeat (Some b) (length x)) out.
Proof.
  intros X B M M0. apply lit_thm; try assumption. intros a A I. assert (G : Z.gcd a b <> 2 ^ 31) by (rewrite (min_gcd a b A B); intros [[-> [->|E]]|[_ E]]; [now apply M0|easy|easy]).
  destruct (gcd_pos a b A B G) as [-> _]. apply gcd_is.
Qed.
Lemma lcm_zero a : lcm_i32 a 0 = 0 /\ lcm_i32 0 a = 0.
Proof.
  unfold lcm_i32. rewrite !Z.mul_0_l. split; [|now destruct (andb _ _)]. destruct (andb _ _); [easy|]. assert (Q : Z.quot 0 (gcd_i32 a 0) = 0) by (destruct (gcd_i32 a 0); reflexivity). now rewrite Q, Z.mul_0_r.
Qed.
Lemma lcm_small a b m : fits32 a -> fits32 b -> is_lcm a b m -> m <= i32_max -> is_lcm a b (lcm_i32 a b).
Proof.
  intros A B M L. assert (E : m = Z.lcm a b).
  { destruct M as [P [Da [Db G]]]. apply Z.divide_antisym_nonneg; [easy|apply Z.lcm_nonneg|apply G; [apply Z.divide_lcm_l|apply Z.divide_lcm_r]|now apply Z.lcm_least]. }
  subst m. destruct (Z.eq_dec a 0) as [->|NA]; [destruct (lcm_zero b) as [_ ->]; now rewrite Z.lcm_0_l in M|]. destruct (Z.eq_dec b 0) as [->|NB]; [destruct (lcm_zero a) as [-> _]; now rewrite Z.lcm_0_r in M|].
  rewrite lcm_eq; try assumption. rewrite (min_gcd a b A B). intros [[-> [->| ->]]|[-> ->]]; try easy. 
Qed.
Lemma lcm_col x y : col32 x -> col32 y -> length x = length y -> (length x = 1%nat -> ~ In None y) ->
  (forall i a b, nth i x None = Some a -> nth i y None = Some b -> exists m, is_lcm a b m /\ m <= i32_max) ->
  exists out, lcm x (Col y) = Ok out /\ rowwise is_lcm x y out.
Proof.
  intros X Y L N H. apply col_thm; try assumption. intros a b A B [i [EA EB]]. destruct (H i a b EA EB) as [m [M LE]]. exact (lcm_small a b m A B M LE).
Qed.
Lemma lcm_lit x b : col32 x -> fits32 b -> (forall a, In (Some a) x -> exists m, is_lcm a b m /\ m <= i32_max) ->
  exists out, lcm x (Lit b) = Ok out /\ rowwise is_lcm x (repeat (Some b) (length x)) out.
Proof.
  intros X B H. apply lit_thm; try assumption. intros a A I. destruct (H a I) as [m [M LE]]. exact (lcm_small a b m A B M LE).
Qed.
Lemma lcm_overflow : lcm [Some 65536] (Lit 65537) = Ok [Some 65536].
Proof. reflexivity. Qed.
Lemma gcd_min : gcd [Some i32_min] (Lit 0) = Ok [Some i32_min].
Proof. reflexivity. Qed.
Lemma one_row_null f a : fits32 a -> call f [Some a] (Col [None]) = Panic.
Proof. intro A. unfold call. rewrite (cast_ok [Some a]) by (intros z [E|[]]; now injection E as <-). reflexivity. Qed.
Lemma shape f x y : col32 x -> col32 y -> length y <> 1%nat -> length x <> length y -> call f x (Col y) = Err.
Proof.
  intros X Y N L. unfold call. rewrite (cast_ok x X), (cast_ok y Y). unfold pl_binary. destruct (Nat.eqb_spec (length x) (length y)); [easy|]. destruct y as [|[b|] [|c y]]; easy.
Qed.
Lemma too_large f x y : ~ col32 x \/ (exists c, y = Col c /\ ~ col32 c) -> call f x y = Err.
Proof. intros [H|[c [-> H]]]; unfold call; [now rewrite (cast_bad x H)|]. rewrite (cast_bad c H). now destruct (cast32 x). Qed.
Lemma gcd_case : col32 [Some 12; None; Some (-9)] /\ col32 [Some 18; Some 4; Some 0] /\ is_gcd 12 18 6 /\ is_lcm 12 18 36 /\ 36 <= i32_max.
Proof.
  assert (F : forall z, -100 <= z <= 100 -> fits32 z) by (intros z H; unfold fits32, i32_min, i32_max; lia).
  split; [intros z H; cbn in H; apply F; repeat destruct H as [H|H]; try easy; injection H as <-; lia|].
  split; [intros z H; cbn in H; apply F; repeat destruct H as [H|H]; try easy; injection H as <-; lia|].
  split; [exact (gcd_is 12 18)|]. split; [exact (lcm_is 12 18)|]. unfold i32_max. lia.
Qed.
Lemma lcm_wraps : exists a b v, fits32 a /\ fits32 b /\ lcm [Some a] (Lit b) = Ok [Some v] /\ ~ (b | v).
Proof.
  exists 65536, 65537, 65536. assert (F : forall z, 0 <= z <= 100000 -> fits32 z) by (intros z H; unfold fits32, i32_min, i32_max; lia). split; [apply F; lia|]. split; [apply F; lia|]. split; [exact lcm_overflow|]. intro D. apply Z.divide_pos_le in D; lia.
Qed.
Lemma gcd_negative : exists a b v, fits32 a /\ fits32 b /\ gcd [Some a] (Lit b) = Ok [Some v] /\ v < 0.
Proof.
  exists i32_min, 0, i32_min. split; [unfold fits32, i32_min, i32_max; lia|]. split; [unfold fits32, i32_min, i32_max; lia|]. split; [exact gcd_min|]. unfold i32_min. lia.
Qed.

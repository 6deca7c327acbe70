(** Products of two columns whose entries may be null, NaN or infinite. *)
From Coq Require Import Reals String List Lra Lia.
From Verif Require Import MetricSpec MetricModel PipeModel PipeSpec TfmModel TfmSpec HotModel TightSpec.
Import ListNotations.
Open Scope R_scope.

Lemma xmul_product u v : product_of u v (xmul u v).
Proof.
  unfold product_of, infinite.
  destruct u, v; cbn [xmul positive negative]; repeat split; intros;
    repeat match goal with H : _ \/ _ |- _ => destruct H | H : _ /\ _ |- _ => destruct H | H : Fin _ = Fin _ |- _ => injection H as H end;
    subst; try discriminate; try contradiction; try reflexivity;
    repeat (destruct (Req_EM_T _ _) || destruct (Rlt_dec _ _)); try reflexivity; try lra; try congruence.
Qed.
Lemma trav_mul : forall x y, length x = length y ->
  exists z, traverse (fun p => mul_cell (fst p) (snd p)) (combine (num_col x) (num_col y)) = Some z /\ length z = length x /\
    forall i, (forall u v, nth_error x i = Some (Some u) -> nth_error y i = Some (Some v) -> exists w, nth_error z i = Some (Num w) /\ product_of u v w) /\
      (nth_error x i = Some None \/ nth_error y i = Some None -> nth_error z i = Some Null).
Proof.
  induction x as [|a x IH]; intros [|b y] L; try discriminate.
  - exists []. split; [reflexivity|]. split; [reflexivity|]. intros [|i]; (split; [easy|intros [H|H]; discriminate H]).
  - destruct (IH y) as (z & E & Lz & G); [cbn in L; lia|]. unfold num_col in *.
    exists ((match a, b with Some u, Some v => Num (xmul u v) | _, _ => Null end) :: z). split.
    + cbn. destruct a, b; cbn; rewrite E; reflexivity.
    + split; [cbn; now rewrite Lz|]. intros [|i]; cbn; [|apply G]. split.
      * intros u v [= ->] [= ->]. eexists. split; [reflexivity|apply xmul_product].
      * intros [[= ->]|[= ->]]; [reflexivity|]. now destruct a.
Qed.
Lemma product_special f a b out x y : lookup a f = Some (num_col x) -> lookup b f = Some (num_col y) -> length x = length y ->
  exists z, prod_expr [a; b] out f = Some [(out, z)] /\ length z = length x /\
    forall i, (forall u v, nth_error x i = Some (Some u) -> nth_error y i = Some (Some v) -> exists w, nth_error z i = Some (Num w) /\ product_of u v w) /\
      (nth_error x i = Some None \/ nth_error y i = Some None -> nth_error z i = Some Null).
Proof.
  intros A B L. destruct (trav_mul x y L) as (z & E & Lz & G). exists z. split; [|now split].
  unfold prod_expr. rewrite A. cbn [reduce_mul]. rewrite B. unfold mul_col.
  replace (length (num_col x)) with (length (num_col y)) by (unfold num_col; now rewrite !map_length). rewrite Nat.eqb_refl, E. reflexivity.
Qed.
Lemma poly_special a b f x y : a <> b -> lookup a f = Some (num_col x) -> lookup b f = Some (num_col y) -> length x = length y ->
  exists e z, polynomial_features [a; b] 2 true = Some [e] /\ e f = Some [((a ++ "*" ++ b)%string, z)] /\ length z = length x /\
    forall i, (forall u v, nth_error x i = Some (Some u) -> nth_error y i = Some (Some v) -> exists w, nth_error z i = Some (Num w) /\ product_of u v w) /\
      (nth_error x i = Some None \/ nth_error y i = Some None -> nth_error z i = Some Null).
Proof.
  intros N A B L. destruct (product_special f a b (a ++ "*" ++ b)%string x y A B L) as (z & E & R).
  exists (prod_expr [a; b] (a ++ "*" ++ b)%string), z. split; [|now split].
  unfold polynomial_features. cbn. destruct (string_dec a a); [|contradiction]. destruct (string_dec b b); [|contradiction].
  destruct (string_dec b a); [congruence|]. unfold two_names. cbn. destruct (string_dec a a); [|contradiction]. destruct (string_dec b b); [|contradiction].
  destruct (string_dec b a); [congruence|]. reflexivity.
Qed.
Lemma special_case : product_of PInf (Fin (- 2)) NInf /\ product_of NInf PInf NInf /\ product_of (Fin 0) PInf NaN.
Proof.
  unfold product_of, infinite. cbn [positive negative]. repeat split; intros;
    repeat match goal with H : _ \/ _ |- _ => destruct H | H : _ /\ _ |- _ => destruct H | H : Fin _ = Fin _ |- _ => injection H as H end;
    subst; try discriminate; try contradiction; try reflexivity; lra.
Qed.

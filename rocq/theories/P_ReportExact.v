(** Property C56: the contributions in a report (Report.v), with exact numbers. *)
From Coq Require Import List ZArith Reals.
From Verif Require Import Report ReportResults.
Import ListNotations.
(** With exact numbers the contributions of the products add up to one. *)
Local Open Scope R_scope.
Definition real_operations : operations R := mkOps R 0 1 Rplus Rminus Rmult Rdiv IZR (fun x => if Req_EM_T x 0 then true else false).
Definition contribution (c : container R) (p : list Z) : R := quot real_operations (p_product real_operations c p) (p_sum real_operations c).
Theorem C56_contributions (c : container R) : is_zero real_operations (p_sum real_operations c) = false ->
  fold_left Rplus (map (contribution c) (c_products c)) 0 = 1.
Proof.
  intros NZ. assert (P : p_sum real_operations c <> 0) by (cbn [is_zero real_operations] in NZ; destruct (Req_EM_T _ _); [discriminate|assumption]).
  assert (F : forall l x, fold_left Rplus (map (contribution c) l) (x / p_sum real_operations c) = fold_left Rplus (map (p_product real_operations c) l) x / p_sum real_operations c).
  { induction l as [|p l IH]; intros x; [reflexivity|]. cbn [map fold_left]. rewrite <- IH. f_equal. unfold contribution. cbn [quot real_operations]. field. exact P. }
  specialize (F (c_products c) 0). replace (0 / p_sum real_operations c) with 0 in F by (field; exact P). rewrite F.
  change (fold_left Rplus (map (p_product real_operations c) (c_products c)) 0) with (p_sum real_operations c). field. exact P.
Qed.
(** And the probability of a product is the product of the probabilities of its literals. *)
Theorem C56_product (c : container R) (i : Z) (p : list Z) : p_product real_operations c (i :: p) = (if Z.ltb i 0 then 1 - c_prob c (Z.abs_nat i) else c_prob c (Z.abs_nat i)) * p_product real_operations c p.
Proof.
  unfold p_product. cbn [map fold_left]. change (p_literal real_operations c i) with (if Z.ltb i 0 then 1 - c_prob c (Z.abs_nat i) else c_prob c (Z.abs_nat i)).
  generalize (if Z.ltb i 0 then 1 - c_prob c (Z.abs_nat i) else c_prob c (Z.abs_nat i)). intros a. cbn [one mul real_operations]. rewrite Rmult_1_l.
  assert (G : forall l x, fold_left Rmult l (a * x) = a * fold_left Rmult l x) by (induction l as [|y l IH]; intros x; cbn [fold_left]; [reflexivity|]; rewrite Rmult_assoc; apply IH).
  rewrite <- (Rmult_1_r a) at 1. apply G.
Qed.

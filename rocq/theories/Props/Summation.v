(** C06, C07: the running sums. *)
From Coq Require Import ZArith List Bool Reals Lra Lia.
From Flocq Require Import Core IEEE754.BinarySingleNaN.
From Verif Require Import Base.Scalar Base.RNum Base.FNum Model.Summation Spec.Summation Proofs.Summation.
Import ListNotations.
Local Open Scope R_scope.

(** ** C06 *)
Theorem C06_pairwise_exact : forall terms : list R, pairwise_of terms = exact_sum terms.
Proof. exact pairwise_exact. Qed.

Theorem C06_kahan_exact : forall terms : list R, kahan_of terms = exact_sum terms.
Proof. exact kahan_exact. Qed.

(** A run that fills two blocks and part of a third. *)
Example C06_example : pairwise_of (repeat 3 300) = 900.
Proof. rewrite C06_pairwise_exact. cbn. lra. Qed.

(** ** C07 *)

(** How many additions a term goes through: one block of 128, then one per tree level. *)
Definition pairwise_depth (n : Z) : nat :=
  (128 + (if Z.eqb (n / 128) 0 then 0 else S (Z.to_nat (Z.log2 (n / 128)))))%nat.

(** In f64: if the total is finite, every term was finite and the error is bounded.  The bound on the
    number of terms, about 2^39, is where the tree's last level starts to absorb carries. *)
Theorem C07_pairwise_error_f64 : forall (lm : Libm f64) (terms : list f64),
  (Z.of_nat (length terms) < 128 * (2 ^ 32 - 1))%Z ->
  let total := @pairwise_of f64 (f64num lm) terms in
  ffinite total = true ->
  Forall (fun x => ffinite x = true) terms /\
  Rabs (B2R total - exact_sum (map B2R terms))
    <= ((1 + bpow radix2 (-53)) ^ pairwise_depth (Z.of_nat (length terms)) - 1)
       * exact_abs_sum (map B2R terms).
Proof.
  intros lm terms Hlen. exact (pairwise_error 53 1024 7074237752028440 (-51) lm terms Hlen).
Qed.

Theorem C07_pairwise_error_f32 : forall (lm : Libm f32) (terms : list f32),
  (Z.of_nat (length terms) < 128 * (2 ^ 32 - 1))%Z ->
  let total := @pairwise_of f32 (f32num lm) terms in
  ffinite total = true ->
  Forall (fun x => ffinite x = true) terms /\
  Rabs (B2R total - exact_sum (map B2R terms))
    <= ((1 + bpow radix2 (-24)) ^ pairwise_depth (Z.of_nat (length terms)) - 1)
       * exact_abs_sum (map B2R terms).
Proof.
  intros lm terms Hlen. exact (pairwise_error 24 128 13176795 (-22) lm terms Hlen).
Qed.

(** Two million terms go through at most 142 additions each, where a plain loop would need two million;
    and a sum that spills into the tree is finite. *)
Example C07_example : pairwise_depth 2000000 = 142%nat /\
  (forall lm, ffinite (@pairwise_of f64 (f64num lm) (repeat (F64 1 (-3)) 300)) = true).
Proof. split; [reflexivity|]. intros lm. vm_compute. reflexivity. Qed.

Print Assumptions C06_pairwise_exact.
Print Assumptions C06_kahan_exact.
Print Assumptions C07_pairwise_error_f64.
Print Assumptions C07_pairwise_error_f32.

(** Facts about angles: the two-argument arctangent and the polar form. *)
From Coq Require Import ZArith Reals Lra Lia.
From Verif Require Import Base.Scalar Base.RNum.
Local Open Scope R_scope.

Definition hyp (x y : R) : R := R_sqrt.sqrt (x * x + y * y).

Lemma hyp_sqr x y : hyp x y * hyp x y = x * x + y * y.
Proof. apply sqrt_sqrt. nra. Qed.
Lemma hyp_pos x y : 0 <= hyp x y.
Proof. apply sqrt_pos. Qed.
Lemma hyp_0 x y : hyp x y = 0 <-> x = 0 /\ y = 0.
Proof.
  pose proof (hyp_sqr x y). split.
  - intros E. rewrite E in H. split; nra.
  - intros [-> ->]. unfold hyp. rewrite Rmult_0_l, Rplus_0_l. apply sqrt_0.
Qed.
Lemma hyp_scale k x y : hyp (k * x) (k * y) = Rabs k * hyp x y.
Proof.
  unfold hyp. replace (k * x * (k * x) + k * y * (k * y)) with (Rsqr k * (x * x + y * y)) by (unfold Rsqr; ring).
  rewrite sqrt_mult; [|apply Rle_0_sqr|nra]. rewrite sqrt_Rsqr_abs. reflexivity.
Qed.

Lemma cos_atan_pos t : Rtrigo_def.cos (Ratan.atan t) = 1 / R_sqrt.sqrt (1 + t * t).
Proof. rewrite cos_atan. unfold Rsqr. reflexivity. Qed.
Lemma sin_atan_pos t : Rtrigo_def.sin (Ratan.atan t) = t / R_sqrt.sqrt (1 + t * t).
Proof. rewrite sin_atan. unfold Rsqr. reflexivity. Qed.

Lemma hyp_factor x y : x <> 0 -> hyp x y = Rabs x * R_sqrt.sqrt (1 + y / x * (y / x)).
Proof.
  intros H. unfold hyp. replace (x * x + y * y) with (Rsqr x * (1 + y / x * (y / x))) by (unfold Rsqr; field; exact H).
  rewrite sqrt_mult; [|apply Rle_0_sqr|nra]. rewrite sqrt_Rsqr_abs. reflexivity.
Qed.

(** A point is its length times the unit vector at its angle. *)
Lemma polar_form x y :
  x = hyp x y * Rtrigo_def.cos (Ratan2 y x) /\ y = hyp x y * Rtrigo_def.sin (Ratan2 y x).
Proof.
  unfold Ratan2.
  destruct (Rlt_dec 0 x) as [P|P].
  - rewrite cos_atan_pos, sin_atan_pos, hyp_factor, Rabs_pos_eq by lra.
    assert (0 < R_sqrt.sqrt (1 + y / x * (y / x))) by (apply sqrt_lt_R0; nra).
    split; field; lra.
  - destruct (Rlt_dec x 0) as [N|N].
    + assert (0 < R_sqrt.sqrt (1 + y / x * (y / x))) by (apply sqrt_lt_R0; nra).
      assert (E : Rabs x = - x) by (apply Rabs_left; lra).
      destruct (Rlt_dec y 0).
      * unfold Rminus. rewrite cos_plus, sin_plus, cos_neg, sin_neg, cos_PI, sin_PI, cos_atan_pos, sin_atan_pos, hyp_factor, E by lra.
        split; field; lra.
      * rewrite cos_plus, sin_plus, cos_PI, sin_PI, cos_atan_pos, sin_atan_pos, hyp_factor, E by lra. split; field; lra.
    + assert (x = 0) by lra. subst x.
      assert (E : hyp 0 y = Rabs y). { unfold hyp. rewrite Rmult_0_l, Rplus_0_l. apply sqrt_Rsqr_abs. }
      rewrite E. destruct (Rlt_dec 0 y).
      * rewrite cos_PI2, sin_PI2, Rabs_pos_eq by lra. lra.
      * destruct (Rlt_dec y 0).
        -- rewrite cos_neg, sin_neg, cos_PI2, sin_PI2, Rabs_left by lra. lra.
        -- assert (y = 0) by lra. subst. rewrite Rabs_R0. lra.
Qed.

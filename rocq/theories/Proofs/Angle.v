(** Angles: the four-quadrant arctangent is the one angle in (-pi, pi] with the given cosine and sine. *)
From Coq Require Import Reals Lra.
From Verif Require Import Base.Scalar Base.RNum Base.Trig.
Local Open Scope R_scope.
Local Notation cos := Rtrigo_def.cos.
Local Notation sin := Rtrigo_def.sin.
Local Notation sqrt := R_sqrt.sqrt.

Lemma atan2_range y x : - PI < Ratan2 y x <= PI.
Proof.
  pose proof PI_RGT_0. unfold Ratan2. pose proof (atan_bound (y / x)) as B.
  destruct (Rlt_dec 0 x); [lra|]. destruct (Rlt_dec x 0) as [N|N].
  - assert (I : / x < 0) by (apply Rinv_lt_0_compat; lra). destruct (Rlt_dec y 0).
    + assert (0 < y / x) by (unfold Rdiv; nra). pose proof (atan_increasing 0 (y / x) ltac:(assumption)). rewrite atan_0 in *. lra.
    + assert (D : y / x <= 0) by (unfold Rdiv; nra). destruct D as [D|D]; [pose proof (atan_increasing _ 0 D)|rewrite D in *]; rewrite atan_0 in *; lra.
  - destruct (Rlt_dec 0 y); [lra|]. destruct (Rlt_dec y 0); lra.
Qed.
Lemma cos_one x : - (2 * PI) < x < 2 * PI -> cos x = 1 -> x = 0.
Proof.
  intros X C. assert (S : sin (x / 2) = 0). { pose proof (cos_2a_sin (x / 2)) as D. replace (2 * (x / 2)) with x in D by field. nra. }
  destruct (Rtotal_order x 0) as [L|[E|L]]; [|exact E|].
  - pose proof (sin_gt_0 (- (x / 2)) ltac:(lra) ltac:(lra)) as G. rewrite sin_neg in G. lra.
  - pose proof (sin_gt_0 (x / 2) ltac:(lra) ltac:(lra)). lra.
Qed.
Lemma angle_unique a b : - PI < a <= PI -> - PI < b <= PI -> cos a = cos b -> sin a = sin b -> a = b.
Proof.
  intros A B C S. assert (a - b = 0); [|lra]. apply cos_one; [lra|]. rewrite cos_minus, C, S. pose proof (sin2_cos2 b) as Q. unfold Rsqr in Q. lra.
Qed.
Lemma atan2_angle a : - PI < a <= PI -> Ratan2 (sin a) (cos a) = a.
Proof.
  intros A. apply angle_unique; [apply atan2_range|exact A|..]; destruct (polar_form (cos a) (sin a)) as [C S];
  (replace (hyp (cos a) (sin a)) with 1 in *; [lra|unfold hyp; pose proof (sin2_cos2 a) as Q; unfold Rsqr in Q; rewrite <- sqrt_1; f_equal; lra]).
Qed.
Lemma hyp_positive k x y : 0 < k -> hyp (k * x) (k * y) = k * hyp x y.
Proof. intros K. rewrite hyp_scale, Rabs_pos_eq; lra. Qed.
Lemma atan2_positive k x y : 0 < k -> (x <> 0 \/ y <> 0) -> Ratan2 (k * y) (k * x) = Ratan2 y x.
Proof.
  intros K N. assert (H : hyp x y <> 0) by (intros E; apply hyp_0 in E; tauto). pose proof (hyp_pos x y) as P.
  destruct (polar_form (k * x) (k * y)) as [A B]. destruct (polar_form x y) as [C D]. rewrite hyp_positive in A, B by exact K.
  apply angle_unique; try apply atan2_range.
  - apply (Rmult_eq_reg_l (k * hyp x y)); [|nra]. rewrite <- A, C at 1. ring_simplify. lra.
  - apply (Rmult_eq_reg_l (k * hyp x y)); [|nra]. rewrite <- B, D at 1. ring_simplify. lra.
Qed.

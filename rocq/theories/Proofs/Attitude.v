(** Rotations from matrices, from pairs of directions and from Euler angles; interpolation. *)
From Coq Require Import ZArith List Bool Arith Reals Lra Lia.
From Verif Require Import Base.Scalar Base.RNum Base.Lists Base.Series Base.Trig Model.Vector Model.Matrix Model.Quaternion Spec.Matrix Spec.Rotation Spec.Quaternion Proofs.Matrix Proofs.Algebra Proofs.Quaternion Proofs.Angle Proofs.Rotation.
Import ListNotations.
Local Open Scope R_scope.
Local Notation cos := Rtrigo_def.cos.
Local Notation sin := Rtrigo_def.sin.
Local Notation sqrt := R_sqrt.sqrt.
Local Notation length := Spec.Rotation.length.

(** ** Proper rotations entry by entry *)
Record proper_entries (a b c d e f g h i : R) : Prop := {
  pe_r0 : a * a + b * b + c * c = 1; pe_r1 : d * d + e * e + f * f = 1; pe_r2 : g * g + h * h + i * i = 1;
  pe_c0 : a * a + d * d + g * g = 1; pe_c1 : b * b + e * e + h * h = 1; pe_c2 : c * c + f * f + i * i = 1;
  pe_r01 : a * d + b * e + c * f = 0; pe_r02 : a * g + b * h + c * i = 0; pe_r12 : d * g + e * h + f * i = 0;
  pe_c01 : a * b + d * e + g * h = 0; pe_c02 : a * c + d * f + g * i = 0; pe_c12 : b * c + e * f + h * i = 0;
  pe_a : a = e * i - f * h; pe_b : b = f * g - d * i; pe_c : c = d * h - e * g;
  pe_d : d = h * c - i * b; pe_e : e = i * a - g * c; pe_f : f = g * b - h * a;
  pe_g : g = b * f - c * e; pe_h : h = c * d - a * f; pe_i : i = a * e - b * d }.
Lemma squares_zero u v w : u * u + v * v + w * w = 0 -> u = 0 /\ v = 0 /\ w = 0.
Proof. intros H. repeat split; nra. Qed.
Lemma proper_entries_of (m : matrix) : proper_rotation m -> proper_entries (m 0%nat 0%nat) (m 0%nat 1%nat) (m 0%nat 2%nat) (m 1%nat 0%nat) (m 1%nat 1%nat) (m 1%nat 2%nat) (m 2%nat 0%nat) (m 2%nat 1%nat) (m 2%nat 2%nat).
Proof.
  intros [O D].
  pose proof (O 0%nat 0%nat ltac:(lia) ltac:(lia)) as C0. pose proof (O 1%nat 1%nat ltac:(lia) ltac:(lia)) as C1. pose proof (O 2%nat 2%nat ltac:(lia) ltac:(lia)) as C2.
  pose proof (O 0%nat 1%nat ltac:(lia) ltac:(lia)) as C01. pose proof (O 0%nat 2%nat ltac:(lia) ltac:(lia)) as C02. pose proof (O 1%nat 2%nat ltac:(lia) ltac:(lia)) as C12. clear O.
  unfold product, transposed, bsum, unit_matrix in *. cbn [Nat.eqb] in *. unfold det, without, skip, bsum in D. cbn [Nat.ltb Nat.leb pow] in D.
  set (a := m 0%nat 0%nat) in *. set (b := m 0%nat 1%nat) in *. set (c := m 0%nat 2%nat) in *. set (d := m 1%nat 0%nat) in *. set (e := m 1%nat 1%nat) in *. set (f := m 1%nat 2%nat) in *. set (g := m 2%nat 0%nat) in *. set (h := m 2%nat 1%nat) in *. set (i := m 2%nat 2%nat) in *.
  clearbody a b c d e f g h i. clear m.
  assert (D' : a * (e * i - f * h) + d * (h * c - i * b) + g * (b * f - c * e) = 1) by (rewrite <- D; ring). clear D.
  assert (S0 : a * a + d * d + g * g = 1) by lra. assert (S1 : b * b + e * e + h * h = 1) by lra. assert (S2 : c * c + f * f + i * i = 1) by lra.
  assert (S01 : a * b + d * e + g * h = 0) by lra. assert (S02 : a * c + d * f + g * i = 0) by lra. assert (S12 : b * c + e * f + h * i = 0) by lra. clear C0 C1 C2 C01 C02 C12.
  assert (K : forall p q r u v w x y z, p * p + q * q + r * r = 1 -> u * u + v * v + w * w = 1 -> x * x + y * y + z * z = 1 -> u * x + v * y + w * z = 0 -> p * (v * z - w * y) + q * (w * x - u * z) + r * (u * y - v * x) = 1 ->
    p = v * z - w * y /\ q = w * x - u * z /\ r = u * y - v * x).
  { intros p q r u v w x y z A B C E F. destruct (squares_zero (p - (v * z - w * y)) (q - (w * x - u * z)) (r - (u * y - v * x))) as (P1 & P2 & P3); [|lra].
    transitivity ((p * p + q * q + r * r) - 2 * (p * (v * z - w * y) + q * (w * x - u * z) + r * (u * y - v * x)) + ((u * u + v * v + w * w) * (x * x + y * y + z * z) - (u * x + v * y + w * z) * (u * x + v * y + w * z))); [ring|]. rewrite A, B, C, E, F. ring. }
  destruct (K a d g b e h c f i S0 S1 S2 S12 ltac:(lra)) as (Ka & Kd & Kg).
  destruct (K b e h c f i a d g S1 S2 S0 ltac:(lra) ltac:(lra)) as (Kb & Ke & Kh).
  destruct (K c f i a d g b e h S2 S0 S1 ltac:(lra) ltac:(lra)) as (Kc & Kf & Ki). clear K.
  assert (T : forall p q r p' q' r' s, p = p' -> q = q' -> r = r' -> p * p' + q * q' + r * r' = s -> p * p + q * q + r * r = s) by (intros p q r p' q' r' s E1 E2 E3 E4; rewrite <- E4, <- E1, <- E2, <- E3; ring).
  constructor; auto; try lra.
  - apply (T a b c _ _ _ 1 Ka Kb Kc). lra.
  - apply (T d e f _ _ _ 1 Kd Ke Kf). lra.
  - apply (T g h i _ _ _ 1 Kg Kh Ki). lra.
  - rewrite Kd, Ke, Kf. ring.
  - rewrite Kg, Kh, Ki. ring.
  - rewrite Kg, Kh, Ki. ring.
Qed.

(** The ten products of components, times four, that a rotation matrix determines *)
Record products (a b c d e f g h i : R) (w x y z : R) : Prop := {
  pr_ww : 4 * (w * w) = 1 + a + e + i; pr_xx : 4 * (x * x) = 1 + a - e - i; pr_yy : 4 * (y * y) = 1 + e - a - i; pr_zz : 4 * (z * z) = 1 + i - a - e;
  pr_wx : 4 * (w * x) = h - f; pr_wy : 4 * (w * y) = c - g; pr_wz : 4 * (w * z) = d - b;
  pr_xy : 4 * (x * y) = b + d; pr_xz : 4 * (x * z) = c + g; pr_yz : 4 * (y * z) = f + h }.
Lemma products_unit a b c d e f g h i w x y z : products a b c d e f g h i w x y z -> unit_quaternion (Quat w x y z).
Proof. intros []. unfold unit_quaternion. cbn [qw qx qy qz]. lra. Qed.
(** Each branch of Shepperd's method: the pivot's square root and the other three by division. *)
Lemma pivot_scale k : 0 < k -> 0 < sqrt k * 2 /\ sqrt k * 2 * (sqrt k * 2) = 4 * k.
Proof. intros K. pose proof (sqrt_lt_R0 k K). split; [lra|]. replace (sqrt k * 2 * (sqrt k * 2)) with (4 * (sqrt k * sqrt k)) by ring. rewrite sqrt_sqrt; lra. Qed.
Lemma pivot_square k : 0 < k -> 4 * (1 / 4 * (sqrt k * 2) * (1 / 4 * (sqrt k * 2))) = k.
Proof. intros K. destruct (pivot_scale k K) as [_ E]. replace (4 * (1 / 4 * (sqrt k * 2) * (1 / 4 * (sqrt k * 2)))) with (/ 4 * (sqrt k * 2 * (sqrt k * 2))) by field. rewrite E. field. Qed.
Lemma pivot_cross k u : 0 < k -> 4 * (1 / 4 * (sqrt k * 2) * (u / (sqrt k * 2))) = u.
Proof. intros K. destruct (pivot_scale k K) as [P _]. field. pose proof (sqrt_lt_R0 k K). lra. Qed.
Lemma pivot_other k u v t : 0 < k -> u * v = k * t -> 4 * (u / (sqrt k * 2) * (v / (sqrt k * 2))) = t.
Proof.
  intros K E. destruct (pivot_scale k K) as [P Q]. replace (4 * (u / (sqrt k * 2) * (v / (sqrt k * 2)))) with (4 * (u * v) / (sqrt k * 2 * (sqrt k * 2))) by (field; pose proof (sqrt_lt_R0 k K); lra).
  rewrite Q, E. field. lra.
Qed.
Definition shepperd (a b c d e f g h i : R) : quaternion R :=
  if Rltb 0 (a + e + i) then let s := sqrt (a + e + i + 1) * 2 in Quat (1 / 4 * s) ((h - f) / s) ((c - g) / s) ((d - b) / s)
  else if (Rltb e a && Rltb i a)%bool then let s := sqrt (1 + a - e - i) * 2 in Quat ((h - f) / s) (1 / 4 * s) ((b + d) / s) ((c + g) / s)
  else if Rltb i e then let s := sqrt (1 + e - a - i) * 2 in Quat ((c - g) / s) ((b + d) / s) (1 / 4 * s) ((f + h) / s)
  else let s := sqrt (1 + i - a - e) * 2 in Quat ((d - b) / s) ((c + g) / s) ((f + h) / s) (1 / 4 * s).
Lemma shepperd_products a b c d e f g h i : proper_entries a b c d e f g h i ->
  let q := shepperd a b c d e f g h i in products a b c d e f g h i (qw q) (qx q) (qy q) (qz q).
Proof.
  intros []. unfold shepperd. cbv zeta. destruct (Rltb 0 (a + e + i)) eqn:B0; rcases.
  - replace (a + e + i + 1) with (1 + a + e + i) by ring. assert (K : 0 < 1 + a + e + i) by lra.
    constructor; cbn [qw qx qy qz]; try (apply pivot_square, K); try (apply pivot_cross, K); apply pivot_other; auto; lra.
  - destruct (Rltb e a) eqn:B1; destruct (Rltb i a) eqn:B2; cbn [andb]; rcases.
    + assert (K : 0 < 1 + a - e - i) by lra.
      constructor; cbn [qw qx qy qz]; try (apply pivot_square, K); rewrite ?(Rmult_comm _ (1 / 4 * _)); try (apply pivot_cross, K); apply pivot_other; auto; lra.
    + destruct (Rltb i e) eqn:B3; rcases; [exfalso; lra|]. assert (K : 0 < 1 + i - a - e) by lra.
      constructor; cbn [qw qx qy qz]; try (apply pivot_square, K); rewrite ?(Rmult_comm _ (1 / 4 * _)); try (apply pivot_cross, K); apply pivot_other; auto; lra.
    + destruct (Rltb i e) eqn:B3; rcases; [|exfalso; lra]. assert (K : 0 < 1 + e - a - i) by lra.
      constructor; cbn [qw qx qy qz]; try (apply pivot_square, K); rewrite ?(Rmult_comm _ (1 / 4 * _)); try (apply pivot_cross, K); apply pivot_other; auto; lra.
    + destruct (Rltb i e) eqn:B3; rcases.
      * assert (K : 0 < 1 + e - a - i) by lra.
        constructor; cbn [qw qx qy qz]; try (apply pivot_square, K); rewrite ?(Rmult_comm _ (1 / 4 * _)); try (apply pivot_cross, K); apply pivot_other; auto; lra.
      * assert (K : 0 < 1 + i - a - e) by lra.
        constructor; cbn [qw qx qy qz]; try (apply pivot_square, K); rewrite ?(Rmult_comm _ (1 / 4 * _)); try (apply pivot_cross, K); apply pivot_other; auto; lra.
Qed.
Lemma products_matrix a b c d e f g h i w x y z : products a b c d e f g h i w x y z -> to_rotation_matrix (Quat w x y z) = [[a; b; c]; [d; e; f]; [g; h; i]].
Proof.
  intros []. unfold to_rotation_matrix. cbn [qw qx qy qz]. rnum.
  repeat (apply f_equal2; [repeat (apply f_equal2; [lra|]); reflexivity|]). reflexivity.
Qed.
Lemma quat_norm_unit q : unit_quaternion q -> quat_norm q = 1.
Proof. intros U. unfold quat_norm. rewrite (proj1 (unit_is q) U). apply sqrt_1. Qed.
Lemma eps_small : 0 < / IZR (2^52) < / 1000.
Proof. split; [apply Rinv_0_lt_compat, IZR_lt; reflexivity|apply Rinv_lt_contravar; [rewrite <- mult_IZR; apply IZR_lt; reflexivity|apply IZR_lt; reflexivity]]. Qed.
Lemma try_normalized_unit q : unit_quaternion q -> quat_try_normalized q = Some q.
Proof.
  intros U. pose proof eps_small. unfold quat_try_normalized. rewrite (quat_norm_unit q U). rnum. cbn [negb orb]. rewrite (proj2 (Rleb_false _ _)) by lra. f_equal. rewrite Rinv_1. destruct q as [w x y z]. unfold quat_scale. cbn [qw qx qy qz]. rnum. apply quat_eq; cbn [qw qx qy qz]; ring.
Qed.
Lemma try_from_rotation_matrix_R (m : mat R) : try_from_rotation_matrix m = quat_try_normalized (shepperd (mget m 0 0) (mget m 0 1) (mget m 0 2) (mget m 1 0) (mget m 1 1) (mget m 1 2) (mget m 2 0) (mget m 2 1) (mget m 2 2)).
Proof. unfold try_from_rotation_matrix, shepperd. rnum. reflexivity. Qed.
Lemma from_matrix_proper (m : mat R) : proper_rotation (mget m) -> exists q, try_from_rotation_matrix m = Some q /\ unit_quaternion q /\ equal 3 3 (mget (to_rotation_matrix q)) (mget m).
Proof.
  intros P. apply proper_entries_of in P. assert (Q := shepperd_products _ _ _ _ _ _ _ _ _ P). cbv zeta in Q.
  rewrite try_from_rotation_matrix_R. set (q := shepperd _ _ _ _ _ _ _ _ _) in *. assert (U := products_unit _ _ _ _ _ _ _ _ _ _ _ _ _ Q). assert (M := products_matrix _ _ _ _ _ _ _ _ _ _ _ _ _ Q).
  replace (Quat (qw q) (qx q) (qy q) (qz q)) with q in * by (destruct q; reflexivity). exists q. split; [apply try_normalized_unit, U|]. split; [exact U|].
  rewrite M. intros i j Hi Hj. unfold mget at 1. three i; three j; reflexivity.
Qed.

(** ** The rotation between two directions *)
Lemma unit_direction_R v : unit_direction v = if Req_EM_T (length v) 0 then None else Some (direction v).
Proof.
  unfold unit_direction. rewrite is_finite3_R. cbn [negb]. destruct v as [[x y] z]. rnum. set (s := Rmax (Rmax (Rabs x) (Rabs y)) (Rabs z)). unfold Reqb.
  pose proof (Rabs_pos x). pose proof (Rabs_pos y). pose proof (Rabs_pos z).
  assert (Sx : Rabs x <= s) by (unfold s; eapply Rle_trans; [|apply Rmax_l]; apply Rmax_l). assert (Sy : Rabs y <= s) by (unfold s; eapply Rle_trans; [|apply Rmax_l]; apply Rmax_r). assert (Sz : Rabs z <= s) by apply Rmax_r.
  destruct (Req_EM_T s 0) as [E|E].
  - destruct (Req_EM_T _ _) as [L|L]; [reflexivity|]. exfalso. apply L. apply length_zero. assert (K : forall t, Rabs t <= s -> t = 0) by (intros t T; destruct (Req_dec t 0) as [|N]; [assumption|]; apply Rabs_pos_lt in N; lra).
    rewrite (K x Sx), (K y Sy), (K z Sz). reflexivity.
  - assert (SP : 0 < s) by lra. rewrite div3_R by exact E. rewrite try_normalized3_R, length_multiple, (Rabs_pos_eq (/ s)) by (left; apply Rinv_0_lt_compat, SP).
    assert (IS : / s <> 0) by (apply Rinv_neq_0_compat; exact E). destruct (Req_EM_T (/ s * _) 0) as [Z|Z]; destruct (Req_EM_T (length (x, y, z)) 0) as [L|L].
    + reflexivity.
    + exfalso. apply Rmult_integral in Z. tauto.
    + exfalso. apply Z. rewrite L. ring.
    + f_equal. unfold direction. rewrite multiple_multiple. f_equal. field. split; assumption.
Qed.
Lemma inner_together_l u v w : inner (together u v) w = inner u w + inner v w.
Proof. destruct u as [[? ?] ?], v as [[? ?] ?], w as [[? ?] ?]. unfold inner, together. ring. Qed.
Lemma inner_sym u v : inner u v = inner v u.
Proof. destruct u as [[? ?] ?], v as [[? ?] ?]. unfold inner. ring. Qed.
Lemma lagrange u v : inner (outer u v) (outer u v) = inner u u * inner v v - inner u v * inner u v.
Proof. destruct u as [[? ?] ?], v as [[? ?] ?]. unfold inner, outer. ring. Qed.
Lemma outer_self_l u v : inner (outer u v) u = 0.
Proof. destruct u as [[? ?] ?], v as [[? ?] ?]. unfold inner, outer. ring. Qed.
(** Half way between opposite directions any perpendicular will do. *)
Lemma opposite_perpendicular a : inner a a = 1 -> forall e, inner e e = 1 -> inner a e * inner a e < 1 ->
  let n := normalized3 (cross3 a e) in inner n n = 1 /\ inner n a = 0.
Proof.
  intros A e E C. rewrite cross3_R. assert (L : 0 < inner (outer a e) (outer a e)) by (rewrite lagrange, A, E; lra).
  assert (LN : 0 < length (outer a e)) by (apply sqrt_lt_R0, L). cbv zeta. rewrite normalized3_R by lra. split; [apply unit_of; lra|]. rewrite inner_multiple_l, outer_self_l. ring.
Qed.
Lemma half_turn_unit n : inner n n = 1 -> unit_quaternion (from_scalar_vector 0 n).
Proof. destruct n as [[x y] z]. unfold inner, unit_quaternion, from_scalar_vector. cbn [qw qx qy qz]. intros H. lra. Qed.
Lemma half_turn_opposite n a : inner n n = 1 -> inner n a = 0 -> transform_point (from_scalar_vector 0 n) a = multiple (-1) a.
Proof. intros N H. rewrite transform_vector, H, N. destruct n as [[x y] z], a as [[p q] r]. unfold together, multiple, outer. apply point_eq; ring. Qed.
Lemma bisector a b : inner a a = 1 -> inner b b = 1 -> inner (together a b) (together a b) <> 0 ->
  let q := quat_normalized (from_scalar_vector (inner (together a b) (together a b) * / 2) (outer a (together a b))) in
  unit_quaternion q /\ transform_point q a = b /\ 0 <= qw q /\ 2 * (qw q * qw q) = 1 + inner a b.
Proof.
  intros A B H. set (c := inner a b).
  assert (Hc : inner (together a b) (together a b) = 2 * (1 + c)). { rewrite !inner_together_l, (inner_sym a (together a b)), (inner_sym b (together a b)), !inner_together_l, A, B, (inner_sym b a). fold c. ring. }
  pose proof (inner_nonneg (together a b)) as P. rewrite Hc in *. set (k := 1 + c) in *. assert (K : 0 < k) by lra.
  assert (O : outer a (together a b) = outer a b) by (destruct a as [[? ?] ?], b as [[? ?] ?]; unfold outer, together; apply point_eq; ring). rewrite O.
  assert (L : inner (outer a b) (outer a b) = 1 - c * c) by (rewrite lagrange, A, B; fold c; ring).
  assert (NS : quat_norm_squared (from_scalar_vector (2 * k * / 2) (outer a b)) = 2 * k).
  { transitivity (k * k + inner (outer a b) (outer a b)); [destruct (outer a b) as [[x y] z]; unfold quat_norm_squared, from_scalar_vector, inner; cbn [qw qx qy qz]; rnum; field|]. rewrite L. unfold k. ring. }
  assert (S : 0 < sqrt (2 * k)) by (apply sqrt_lt_R0; lra). assert (SS : sqrt (2 * k) * sqrt (2 * k) = 2 * k) by (apply sqrt_sqrt; lra).
  cbv zeta. unfold quat_normalized, quat_norm. rewrite NS. rnum. set (s := sqrt (2 * k)) in *.
  assert (Q : quat_scale (from_scalar_vector (2 * k * / 2) (outer a b)) (/ s) = from_scalar_vector (k / s) (multiple (/ s) (outer a b))).
  { destruct (outer a b) as [[x y] z]. unfold quat_scale, from_scalar_vector, multiple. cbn [qw qx qy qz]. rnum. apply quat_eq; cbn [qw qx qy qz]; field; lra. }
  rewrite Q. split; [|split; [|split]].
  - apply unit_is. rewrite <- Q, norm_scale, NS. rewrite <- SS. field. lra.
  - rewrite transform_vector, !inner_multiple_l, inner_multiple_r, L, outer_self_l.
    assert (T : outer (multiple (/ s) (outer a b)) a = multiple (/ s) (together b (multiple (- c) a))).
    { assert (T' : outer (outer a b) a = together (multiple (inner a a) b) (multiple (- inner a b) a)) by (destruct a as [[? ?] ?], b as [[? ?] ?]; unfold outer, together, multiple, inner; apply point_eq; ring).
      rewrite A, multiple_one in T'. fold c in T'. rewrite <- T'. destruct (outer a b) as [[? ?] ?], a as [[? ?] ?]. unfold outer, multiple. apply point_eq; ring. }
    rewrite T. destruct (outer a b) as [[o1 o2] o3]. destruct a as [[a1 a2] a3], b as [[b1 b2] b3]. unfold together, multiple.
    assert (E1 : k / s * (k / s) - / s * (/ s * (1 - c * c)) = c). { transitivity ((k * k - (1 - c * c)) / (s * s)); [field; lra|]. rewrite SS. unfold k. field. fold k. lra. }
    assert (E2 : 2 * (k / s) * / s = 1). { transitivity (2 * k / (s * s)); [field; lra|]. rewrite SS. field. lra. }
    rewrite E1. apply point_eq; rewrite ?Rmult_0_r, ?Rmult_0_l;
    match goal with |- ?l = ?r => match l with context [2 * ?f * (/ s * ?u)] => replace l with (l - (2 * f * / s) * u + 1 * u) by (rewrite E2; ring) end end; ring.
  - rewrite scalar_of. apply Rlt_le, Rdiv_lt_0_compat; lra.
  - rewrite scalar_of. transitivity (2 * k * k / (s * s)); [field; lra|]. rewrite SS. unfold k. field. fold k. lra.
Qed.
(** No rotation taking one direction to the other is shorter. *)
Lemma shortest_possible r a b : unit_quaternion r -> inner a a = 1 -> transform_point r a = b -> 2 * (qw r * qw r) <= 1 + inner a b.
Proof.
  intros U A T. apply unit_split in U. rewrite <- (vector_eq r) in T. rewrite transform_vector in T. rewrite length_sqr in U. set (u := quat_vec r) in *. set (w := qw r) in *. rewrite <- T.
  assert (E : inner a (together (multiple (w * w - inner u u) a) (together (multiple (2 * inner u a) u) (multiple (2 * w) (outer u a)))) = (w * w - inner u u) * inner a a + 2 * (inner u a * inner u a)).
  { destruct a as [[? ?] ?], u as [[? ?] ?]. unfold inner, together, multiple, outer. ring. }
  rewrite E, A. nra.
Qed.
Lemma from_two_vectors_R from target : from <> (0, 0, 0) -> target <> (0, 0, 0) ->
  let q := from_two_vectors from target in let a := direction from in let b := direction target in
  unit_quaternion q /\ transform_point q a = b /\ 0 <= qw q /\ 2 * (qw q * qw q) = 1 + inner a b.
Proof.
  intros F T. unfold from_two_vectors. rewrite !unit_direction_R.
  destruct (Req_EM_T (length from) 0) as [Z|_]; [exfalso; apply F, length_zero, Z|]. destruct (Req_EM_T (length target) 0) as [Z|_]; [exfalso; apply T, length_zero, Z|].
  assert (A := direction_unit from F). assert (B := direction_unit target T). cbv zeta. set (a := direction from) in *. set (b := direction target) in *. clearbody a b. clear F T from target.
  rewrite add3_R, norm_squared3_R. rnum. unfold Reqb. destruct (Req_EM_T (inner (together a b) (together a b)) 0) as [Z|NZ].
  - assert (b = multiple (-1) a) as ->. { apply inner_zero in Z. destruct a as [[a1 a2] a3], b as [[b1 b2] b3]. unfold together in Z. injection Z as Z1 Z2 Z3. unfold multiple. apply point_eq; lra. }
    assert (C : inner a (multiple (-1) a) = -1) by (rewrite inner_multiple_r, A; ring).
    destruct a as [[x y] z].
    match goal with |- context [cross3 _ ?e] => set (n := e) end.
    assert (N : inner n n = 1 /\ inner (x, y, z) n * inner (x, y, z) n < 1).
    { unfold inner in A. assert (K : forall t, t * t = Rabs t * Rabs t) by (intros t; unfold Rabs; destruct (Rcase_abs t); ring). rewrite (K x), (K y), (K z) in A.
      pose proof (Rabs_pos x). pose proof (Rabs_pos y). pose proof (Rabs_pos z).
      unfold n. destruct (Rleb (Rabs x) (Rabs y)) eqn:B1; destruct (Rleb (Rabs x) (Rabs z)) eqn:B2; destruct (Rleb (Rabs y) (Rabs z)) eqn:B3; cbn [andb]; rcases; unfold inner; (split; [ring|]);
      match goal with |- ?l < 1 => first [replace l with (x * x) by ring|replace l with (y * y) by ring|replace l with (z * z) by ring] end; rewrite K; nra. }
    destruct (opposite_perpendicular (x, y, z) A n (proj1 N) (proj2 N)) as [P Q]. cbv zeta in P, Q. set (m := normalized3 (cross3 (x, y, z) n)) in *.
    rewrite scalar_of, C. split; [apply half_turn_unit, P|]. split; [apply half_turn_opposite; assumption|lra].
  - rewrite cross3_R. exact (bisector a b A B NZ).
Qed.

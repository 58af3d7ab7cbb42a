(** The quaternion model over the reals. *)
From Coq Require Import ZArith List Bool Arith Reals Lra Lia.
From Verif Require Import Base.Scalar Base.RNum Base.Lists Base.Series Base.Trig Model.Vector Model.Matrix Model.Quaternion Spec.Matrix Spec.Rotation Spec.Quaternion.
Import ListNotations.
Local Open Scope R_scope.
Local Notation cos := Rtrigo_def.cos.
Local Notation sin := Rtrigo_def.sin.
Local Notation sqrt := R_sqrt.sqrt.

Lemma dot3_R u v : dot3 u v = inner u v.
Proof. destruct u as [[a b] c], v as [[d e] f]. unfold dot3, dot, inner. cbn -[Rmult Rplus]. rnum. ring. Qed.
Lemma add3_R u v : add3 u v = together u v.
Proof. destruct u as [[a b] c], v as [[d e] f]. reflexivity. Qed.
Lemma scale3_R u s : scale3 u s = multiple s u.
Proof. destruct u as [[a b] c]. unfold scale3, multiple, of_list3, vget. cbn. rnum. f_equal; [f_equal|]; ring. Qed.
Lemma neg3_R u : neg3 u = multiple (-1) u.
Proof. destruct u as [[a b] c]. unfold neg3, multiple, of_list3, vget. cbn. rnum. f_equal; [f_equal|]; ring. Qed.
Lemma sub3_R u v : sub3 u v = together u (multiple (-1) v).
Proof. destruct u as [[a b] c], v as [[d e] f]. unfold sub3, together, multiple, of_list3, vget. cbn. rnum. f_equal; [f_equal|]; ring. Qed.
Lemma cross3_R u v : cross3 u v = outer u v.
Proof. destruct u as [[a b] c], v as [[d e] f]. reflexivity. Qed.
Lemma norm_squared3_R u : norm_squared3 u = inner u u.
Proof. apply dot3_R. Qed.
Lemma norm3_R u : norm3 u = length u.
Proof. unfold norm3, norm, length. rnum. f_equal. apply dot3_R. Qed.
Lemma div3_R u s : s <> 0 -> div3 u s = multiple (/ s) u.
Proof.
  intros H. destruct u as [[a b] c]. unfold div3, vec_div, safe_div, multiple, of_list3, vget. cbn [list3 map nth]. rnum.
  rewrite (proj2 (Reqb_false s 0) H). f_equal; [f_equal|]; unfold Rdiv; ring.
Qed.
Lemma is_finite3_R (u : vec3 R) : is_finite3 u = true.
Proof. destruct u as [[a b] c]. reflexivity. Qed.

Lemma inner_nonneg u : 0 <= inner u u.
Proof. destruct u as [[a b] c]. unfold inner. nra. Qed.
Lemma length_nonneg u : 0 <= length u.
Proof. apply sqrt_pos. Qed.
Lemma length_sqr u : length u * length u = inner u u.
Proof. apply sqrt_sqrt, inner_nonneg. Qed.
Lemma inner_zero u : inner u u = 0 -> u = (0, 0, 0).
Proof. destruct u as [[a b] c]. unfold inner. intros H. f_equal; [f_equal|]; nra. Qed.
Lemma length_zero u : length u = 0 <-> u = (0, 0, 0).
Proof.
  split; [intros H; apply inner_zero; rewrite <- length_sqr, H; ring|intros ->]. unfold length, inner. replace (_ + _) with 0 by ring. apply sqrt_0.
Qed.
Lemma normalized3_R u : length u <> 0 -> normalized3 u = multiple (/ length u) u.
Proof. intros H. unfold normalized3, normalized. fold (norm3 u). rewrite norm3_R. fold (div3 u (length u)). apply div3_R, H. Qed.
Lemma try_normalized3_R u : try_normalized3 u = if Req_EM_T (length u) 0 then None else Some (multiple (/ length u) u).
Proof.
  unfold try_normalized3, try_normalized. fold (norm3 u). rewrite norm3_R. rnum. unfold Reqb. cbn [orb].
  destruct (Req_EM_T (length u) 0) as [E|E]; [reflexivity|]. cbn [option_map]. fold (div3 u (length u)). rewrite div3_R by exact E. reflexivity.
Qed.
Lemma length_multiple k u : length (multiple k u) = Rabs k * length u.
Proof.
  unfold length. replace (inner (multiple k u) (multiple k u)) with (Rsqr k * inner u u) by (destruct u as [[a b] c]; unfold inner, multiple, Rsqr; ring).
  rewrite sqrt_mult; [|apply Rle_0_sqr|apply inner_nonneg]. rewrite sqrt_Rsqr_abs. reflexivity.
Qed.
Lemma inner_multiple_l k u v : inner (multiple k u) v = k * inner u v.
Proof. destruct u as [[a b] c], v as [[d e] f]. unfold inner, multiple. ring. Qed.
Lemma inner_multiple_r k u v : inner u (multiple k v) = k * inner u v.
Proof. destruct u as [[a b] c], v as [[d e] f]. unfold inner, multiple. ring. Qed.
Lemma unit_of u : length u <> 0 -> inner (multiple (/ length u) u) (multiple (/ length u) u) = 1.
Proof. intros H. rewrite inner_multiple_l, inner_multiple_r, <- length_sqr. field. exact H. Qed.

(** Unit quaternions *)

Ltac quats := repeat match goal with q : quaternion R |- _ => destruct q end; repeat match goal with p : vec3 R |- _ => destruct p as [[? ?] ?] | p : point |- _ => destruct p as [[? ?] ?] end;
  unfold inverse_transform_point in *; unfold transform_point in *; unfold unit_quaternion, quat_mul, quat_add, quat_sub, quat_neg, quat_scale, conjugate, quat_identity, quat_norm_squared, quat_dot, inner, outer, together, multiple, quat_vec in *; cbn [qw qx qy qz] in *; rnum; cbn [qw qx qy qz] in *.

Lemma quat_eq (p q : quaternion R) : qw p = qw q -> qx p = qx q -> qy p = qy q -> qz p = qz q -> p = q.
Proof. destruct p, q. cbn. intros -> -> -> ->. reflexivity. Qed.
Ltac qring := quats; first [apply quat_eq; cbn [qw qx qy qz]; ring | f_equal; [f_equal|]; ring | ring].

Lemma mul_assoc (p q r : quaternion R) : quat_mul (quat_mul p q) r = quat_mul p (quat_mul q r). Proof. qring. Qed.
Lemma mul_identity_l (q : quaternion R) : quat_mul quat_identity q = q. Proof. qring. Qed.
Lemma mul_identity_r (q : quaternion R) : quat_mul q quat_identity = q. Proof. qring. Qed.
Lemma norm_mul (p q : quaternion R) : quat_norm_squared (quat_mul p q) = quat_norm_squared p * quat_norm_squared q. Proof. qring. Qed.
Lemma conjugate_mul (p q : quaternion R) : conjugate (quat_mul p q) = quat_mul (conjugate q) (conjugate p). Proof. qring. Qed.
Lemma conjugate_conjugate (q : quaternion R) : conjugate (conjugate q) = q. Proof. qring. Qed.
Lemma mul_conjugate (q : quaternion R) : quat_mul q (conjugate q) = Quat (quat_norm_squared q) 0 0 0. Proof. qring. Qed.
Lemma conjugate_mul_self (q : quaternion R) : quat_mul (conjugate q) q = Quat (quat_norm_squared q) 0 0 0. Proof. qring. Qed.
Lemma norm_squared_nonneg (q : quaternion R) : 0 <= quat_norm_squared q. Proof. quats. nra. Qed.
Lemma quat_norm_sqr (q : quaternion R) : quat_norm q * quat_norm q = quat_norm_squared q.
Proof. apply sqrt_sqrt, norm_squared_nonneg. Qed.
Lemma norm_squared_zero (q : quaternion R) : quat_norm_squared q = 0 -> q = Quat 0 0 0 0.
Proof. quats. intros H. apply quat_eq; cbn; nra. Qed.
Lemma norm_scale (q : quaternion R) s : quat_norm_squared (quat_scale q s) = s * s * quat_norm_squared q. Proof. qring. Qed.
Lemma unit_is (q : quaternion R) : unit_quaternion q <-> quat_norm_squared q = 1. Proof. quats. tauto. Qed.
Lemma unit_mul (p q : quaternion R) : unit_quaternion p -> unit_quaternion q -> unit_quaternion (quat_mul p q).
Proof. rewrite !unit_is, norm_mul. intros -> ->. ring. Qed.
Lemma unit_conjugate (q : quaternion R) : unit_quaternion q -> unit_quaternion (conjugate q). Proof. quats. intros H. rewrite <- H. ring. Qed.
Lemma unit_identity : unit_quaternion quat_identity. Proof. quats. ring. Qed.
Lemma unit_neg (q : quaternion R) : unit_quaternion q -> unit_quaternion (quat_neg q). Proof. quats. intros H. rewrite <- H. ring. Qed.

Lemma transform_explicit (w x y z a b c : R) : transform_point (Quat w x y z) (a, b, c) =
  ((w * w + x * x - y * y - z * z) * a + 2 * (x * y - w * z) * b + 2 * (x * z + w * y) * c,
   2 * (x * y + w * z) * a + (w * w - x * x + y * y - z * z) * b + 2 * (y * z - w * x) * c,
   2 * (x * z - w * y) * a + 2 * (y * z + w * x) * b + (w * w - x * x - y * y + z * z) * c).
Proof. quats. f_equal; [f_equal|]; ring. Qed.
Lemma sandwich (q : quaternion R) v : quat_mul (quat_mul q (from_scalar_vector 0 v)) (conjugate q) = from_scalar_vector 0 (transform_point q v).
Proof. destruct v as [[a b] c]. unfold from_scalar_vector, transform_point. apply quat_eq; cbn [qw qx qy qz]; try reflexivity. quats. ring. Qed.
Lemma from_vector_eq (u v : vec3 R) : from_scalar_vector 0 u = from_scalar_vector 0 v -> u = v.
Proof. destruct u as [[? ?] ?], v as [[? ?] ?]. unfold from_scalar_vector. intros [= -> -> ->]. reflexivity. Qed.
Lemma transform_mul (p q : quaternion R) v : transform_point (quat_mul p q) v = transform_point p (transform_point q v).
Proof. apply from_vector_eq. rewrite <- sandwich, <- sandwich, <- sandwich, conjugate_mul, !mul_assoc. reflexivity. Qed.
Ltac points := repeat match goal with q : quaternion R |- _ => destruct q end; repeat match goal with p : vec3 R |- _ => destruct p as [[? ?] ?] | p : point |- _ => destruct p as [[? ?] ?] end;
  unfold inverse_transform_point in *; unfold unit_quaternion, quat_norm_squared, conjugate, quat_neg, inner, outer, together, multiple in *; cbn [qw qx qy qz] in *; rnum; rewrite ?transform_explicit.
Lemma transform_identity (v : vec3 R) : transform_point quat_identity v = v.
Proof. unfold quat_identity. points. f_equal; [f_equal|]; ring. Qed.
Lemma transform_linear (q : quaternion R) a b u v :
  transform_point q (together (multiple a u) (multiple b v)) = together (multiple a (transform_point q u)) (multiple b (transform_point q v)).
Proof. points. f_equal; [f_equal|]; ring. Qed.
Lemma transform_inner (q : quaternion R) u v : inner (transform_point q u) (transform_point q v) = (quat_norm_squared q)² * inner u v.
Proof. unfold Rsqr. points. ring. Qed.
Lemma transform_outer (q : quaternion R) u v : outer (transform_point q u) (transform_point q v) = multiple (quat_norm_squared q) (transform_point q (outer u v)).
Proof. points. f_equal; [f_equal|]; ring. Qed.
Lemma transform_neg (q : quaternion R) v : transform_point (quat_neg q) v = transform_point q v.
Proof. points. f_equal; [f_equal|]; ring. Qed.
Lemma transform_undo (q : quaternion R) v : unit_quaternion q -> inverse_transform_point q (transform_point q v) = v.
Proof.
  intros U. unfold inverse_transform_point. rewrite <- transform_mul, conjugate_mul_self. rewrite (proj1 (unit_is q) U). apply transform_identity.
Qed.

(** The rotation matrix of a unit quaternion acts as the sandwich product. *)
Lemma rotation_matrix_carries (q : quaternion R) v : unit_quaternion q -> carries (mget (to_rotation_matrix q)) v (transform_point q v).
Proof.
  intros U i Hi. unfold carries, times, bsum. destruct q as [w x y z], v as [[a b] c]. unfold unit_quaternion in U. cbn [qw qx qy qz] in U.
  destruct i as [|[|[|i]]]; [| | |lia]; rewrite transform_explicit; unfold to_rotation_matrix, mget, coordinate; cbn [nth qw qx qy qz]; rnum.
  - match goal with |- ?l = ?r => assert (l - r = a * (1 - (w * w + x * x + y * y + z * z))) by ring; rewrite U in *; lra end.
  - match goal with |- ?l = ?r => assert (l - r = b * (1 - (w * w + x * x + y * y + z * z))) by ring; rewrite U in *; lra end.
  - match goal with |- ?l = ?r => assert (l - r = c * (1 - (w * w + x * x + y * y + z * z))) by ring; rewrite U in *; lra end.
Qed.
Lemma rotation_matrix_proper (q : quaternion R) : unit_quaternion q -> proper_rotation (mget (to_rotation_matrix q)).
Proof.
  intros U. destruct q as [w x y z]. unfold unit_quaternion in U. cbn [qw qx qy qz] in U. set (n := w * w + x * x + y * y + z * z) in U. split.
  - intros i j Hi Hj. unfold product, transposed, bsum, unit_matrix.
    destruct i as [|[|[|i]]]; [| | |lia]; (destruct j as [|[|[|j]]]; [| | |lia]); unfold to_rotation_matrix, mget; cbn [nth qw qx qy qz Nat.eqb]; rnum.
    all: match goal with |- ?l = 1 => idtac | |- ?l = 0 => idtac end.
    + assert (E : (y * y + z * z) * n = y * y + z * z) by (rewrite U; ring). unfold n in E. nra.
    + assert (E : (x * y) * n = x * y) by (rewrite U; ring). unfold n in E. nra.
    + assert (E : (x * z) * n = x * z) by (rewrite U; ring). unfold n in E. nra.
    + assert (E : (x * y) * n = x * y) by (rewrite U; ring). unfold n in E. nra.
    + assert (E : (x * x + z * z) * n = x * x + z * z) by (rewrite U; ring). unfold n in E. nra.
    + assert (E : (y * z) * n = y * z) by (rewrite U; ring). unfold n in E. nra.
    + assert (E : (x * z) * n = x * z) by (rewrite U; ring). unfold n in E. nra.
    + assert (E : (y * z) * n = y * z) by (rewrite U; ring). unfold n in E. nra.
    + assert (E : (x * x + y * y) * n = x * x + y * y) by (rewrite U; ring). unfold n in E. nra.
  - unfold det, without, skip, bsum, to_rotation_matrix, mget. cbn [nth qw qx qy qz Nat.ltb Nat.leb pow]. rnum.
    assert (E : (x * x + y * y + z * z) * n = x * x + y * y + z * z) by (rewrite U; ring). unfold n in E.
    match goal with |- ?l = 1 => replace l with (1 - 4 * (x * x + y * y + z * z) + 4 * ((x * x + y * y + z * z) * (w * w + x * x + y * y + z * z))) by ring end. lra.
Qed.

(** ** Turning about an axis *)
Lemma transform_vector (w : R) u v :
  transform_point (from_scalar_vector w u) v = together (multiple (w * w - inner u u) v) (together (multiple (2 * inner u v) u) (multiple (2 * w) (outer u v))).
Proof. destruct u as [[x y] z], v as [[a b] c]. unfold from_scalar_vector. rewrite transform_explicit. unfold inner, outer, together, multiple. f_equal; [f_equal|]; ring. Qed.
Lemma point_eq (a b c a' b' c' : R) : a = a' -> b = b' -> c = c' -> (a, b, c) = (a', b', c').
Proof. intros -> -> ->. reflexivity. Qed.
Lemma turned_explicit n angle p : inner n n = 1 ->
  turned n angle p = together (multiple (cos angle) p) (together (multiple ((1 - cos angle) * inner n p) n) (multiple (sin angle) (outer n p))).
Proof.
  intros U. destruct n as [[x y] z], p as [[a b] c]. unfold turned, inner, outer, together, multiple in *. apply point_eq; ring.
Qed.
Lemma half_turn angle : cos angle = cos (angle / 2) * cos (angle / 2) - sin (angle / 2) * sin (angle / 2) /\ sin angle = 2 * sin (angle / 2) * cos (angle / 2) /\ sin (angle / 2) * sin (angle / 2) + cos (angle / 2) * cos (angle / 2) = 1.
Proof.
  pose proof (sin2_cos2 (angle / 2)) as Q. unfold Rsqr in Q. rewrite <- cos_2a, <- sin_2a. replace (2 * (angle / 2)) with angle by field. repeat split; assumption.
Qed.
Lemma turn_quaternion n angle p : inner n n = 1 -> transform_point (from_scalar_vector (cos (angle / 2)) (multiple (sin (angle / 2)) n)) p = turned n angle p.
Proof.
  intros U. rewrite turned_explicit by exact U. rewrite transform_vector. rewrite !inner_multiple_l, inner_multiple_r, U.
  destruct (half_turn angle) as (-> & -> & Q). set (c := cos (angle / 2)) in *. set (s := sin (angle / 2)) in *.
  assert (Q' : 1 - (c * c - s * s) = 2 * (s * s)) by (rewrite <- Q; ring). rewrite Q'.
  destruct n as [[x y] z], p as [[a b] d]. unfold inner, outer, together, multiple. apply point_eq; ring.
Qed.
Lemma turn_unit n angle : inner n n = 1 -> unit_quaternion (from_scalar_vector (cos (angle / 2)) (multiple (sin (angle / 2)) n)).
Proof.
  intros U. destruct (half_turn angle) as (_ & _ & Q). destruct n as [[x y] z]. unfold unit_quaternion, from_scalar_vector, multiple, inner in *. cbn [qw qx qy qz].
  set (c := cos (angle / 2)) in *. set (s := sin (angle / 2)) in *. replace (_ + _) with (c * c + s * s * (x * x + y * y + z * z)) by ring. rewrite U. lra.
Qed.
Lemma multiple_multiple a b u : multiple a (multiple b u) = multiple (a * b) u.
Proof. destruct u as [[x y] z]. unfold multiple. apply point_eq; ring. Qed.
Lemma multiple_one u : multiple 1 u = u.
Proof. destruct u as [[x y] z]. unfold multiple. apply point_eq; ring. Qed.
Definition direction (u : point) : point := multiple (/ length u) u.
Lemma direction_unit u : u <> (0, 0, 0) -> inner (direction u) (direction u) = 1.
Proof. intros H. apply unit_of. intros E. apply H, length_zero, E. Qed.

Lemma from_axis_angle_R axis angle : /IZR (2^52) < length axis ->
  from_axis_angle axis angle = from_scalar_vector (cos (angle / 2)) (multiple (sin (angle / 2)) (direction axis)).
Proof.
  intros H. unfold from_axis_angle. rewrite dot3_R. rnum. fold (length axis). rewrite (proj2 (Rleb_false _ _) H).
  assert (0 < / IZR (2^52)) by (apply Rinv_0_lt_compat, IZR_lt; reflexivity).
  destruct axis as [[x y] z]. unfold direction, multiple, from_scalar_vector. set (l := length (x, y, z)) in *. change (angle * / 2) with (angle / 2).
  apply quat_eq; cbn [qw qx qy qz]; [reflexivity|field; lra..].
Qed.
Lemma from_axis_angle_tiny axis angle : length axis <= /IZR (2^52) -> from_axis_angle axis angle = quat_identity.
Proof. intros H. unfold from_axis_angle. rewrite dot3_R. rnum. fold (length axis). rewrite (proj2 (Rleb_true _ _) H). reflexivity. Qed.

(** The angle of a point in the right half plane above the axis *)
Lemma atan2_first x y : 0 <= y -> 0 <= x -> 0 <= Ratan2 y x <= PI / 2.
Proof.
  intros Y X. pose proof PI_RGT_0. unfold Ratan2. destruct (Rlt_dec 0 x) as [P|P].
  - assert (0 <= y / x) by (apply Rmult_le_pos; [lra|left; apply Rinv_0_lt_compat; lra]). pose proof (atan_bound (y / x)).
    split; [|lra]. destruct (Req_dec (y / x) 0) as [->|N]; [rewrite atan_0; lra|]. rewrite <- atan_0. left. apply atan_increasing. lra.
  - destruct (Rlt_dec x 0); [lra|]. destruct (Rlt_dec 0 y); [lra|]. destruct (Rlt_dec y 0); lra.
Qed.
Lemma atan2_polar x y : x * x + y * y = 1 -> cos (Ratan2 y x) = x /\ sin (Ratan2 y x) = y.
Proof.
  intros U. destruct (polar_form x y) as [A B]. replace (hyp x y) with 1 in * by (unfold hyp; rewrite U; symmetry; apply sqrt_1).
  rewrite Rmult_1_l in A, B. split; congruence.
Qed.

(** The quaternion chosen by the shortest-path rule *)
Definition shortest (q : quaternion R) : quaternion R := if Rltb (qw q) 0 then quat_neg q else q.
Lemma shortest_is q : shortest q = q \/ shortest q = quat_neg q.
Proof. unfold shortest. destruct (Rltb (qw q) 0); auto. Qed.
Lemma shortest_nonneg q : 0 <= qw (shortest q).
Proof. unfold shortest. destruct (Rltb (qw q) 0) eqn:E; rcases; [unfold quat_neg; cbn; rnum; lra|lra]. Qed.
Lemma shortest_unit q : unit_quaternion q -> unit_quaternion (shortest q).
Proof. destruct (shortest_is q) as [->| ->]; auto using unit_neg. Qed.
Lemma shortest_transform q v : transform_point (shortest q) v = transform_point q v.
Proof. destruct (shortest_is q) as [->| ->]; auto using transform_neg. Qed.

Lemma vector_length (q : quaternion R) : R_sqrt.sqrt (qx q * qx q + qy q * qy q + qz q * qz q) = length (quat_vec q).
Proof. unfold length, quat_vec, inner. reflexivity. Qed.
Lemma unit_split q : unit_quaternion q <-> qw q * qw q + length (quat_vec q) * length (quat_vec q) = 1.
Proof. rewrite length_sqr. unfold unit_quaternion, quat_vec, inner. split; intros H; lra. Qed.
Lemma vec_shortest_length q : length (quat_vec (shortest q)) = length (quat_vec q).
Proof.
  destruct (shortest_is q) as [->| ->]; [reflexivity|]. replace (quat_vec (quat_neg q)) with (multiple (-1) (quat_vec q)).
  - rewrite length_multiple. replace (Rabs (-1)) with 1 by (rewrite Rabs_left; lra). ring.
  - unfold quat_vec, quat_neg, multiple. cbn. rnum. apply point_eq; ring.
Qed.
(** Half the angle of the shortest rotation *)
Definition half_angle (q : quaternion R) : R := Ratan2 (length (quat_vec (shortest q))) (qw (shortest q)).
Lemma half_angle_range q : 0 <= half_angle q <= PI / 2.
Proof. apply atan2_first; [apply length_nonneg|apply shortest_nonneg]. Qed.
Lemma half_angle_polar q : unit_quaternion q -> cos (half_angle q) = qw (shortest q) /\ sin (half_angle q) = length (quat_vec (shortest q)).
Proof. intros U. apply atan2_polar. apply (proj1 (unit_split (shortest q))), shortest_unit, U. Qed.

Lemma to_axis_angle_R q : to_axis_angle q = if Rle_dec (length (quat_vec q)) (/IZR (2^52)) then ((1, 0, 0), 0) else (direction (quat_vec (shortest q)), 2 * half_angle q).
Proof.
  unfold to_axis_angle. rnum. fold (shortest q). unfold half_angle, direction. rewrite vector_length. rewrite !(vec_shortest_length q). unfold Rleb.
  destruct (Rle_dec _ _); [reflexivity|]. unfold multiple. cbn [quat_vec]. unfold quat_vec at 4. apply f_equal2; [|reflexivity]. apply point_eq; ring.
Qed.
(** Every unit quaternion whose vector part is not zero turns about its vector part. *)
Lemma shortest_turn q v : unit_quaternion q -> quat_vec q <> (0, 0, 0) -> transform_point q v = turned (direction (quat_vec (shortest q))) (2 * half_angle q) v.
Proof.
  intros U N. rewrite <- shortest_transform. destruct (half_angle_polar q U) as [C S].
  assert (N' : quat_vec (shortest q) <> (0, 0, 0)). { intros E. apply N. apply length_zero. rewrite <- vec_shortest_length. apply length_zero, E. }
  rewrite <- turn_quaternion by (apply direction_unit, N'). replace (2 * half_angle q / 2) with (half_angle q) by field. rewrite C, S. unfold direction. rewrite multiple_multiple.
  assert (length (quat_vec (shortest q)) <> 0) by (intros E; apply N', length_zero, E). rewrite Rinv_r by assumption. rewrite multiple_one. destruct (shortest q). reflexivity.
Qed.

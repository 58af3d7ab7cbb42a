(** crates/multicalc/src/spatial/lie (mod.rs, so2.rs, so3.rs, se2.rs, se3.rs), twist.rs, wrench.rs, inertia.rs and
    free_joint.rs, over any scalar.

    A [Vector<2, T>] is the pair of its components, a [Vector<6, T>] the pair of its first and last three. *)
From Coq Require Import ZArith List Bool Arith.
From Verif Require Import Base.Scalar Base.Lists Model.Errors Model.Vector Model.Matrix Model.Lu Model.Quaternion.
Import ListNotations.

(** error.rs:136-145, enum SpatialError *)
Inductive SpatialError := SpNonPositiveMass | SpNonFinite | SpNotSymmetric | SpNonPositiveInertia.

Section Lie.
  Context {T : Type} {NT : Num T}.
  Local Open Scope num_scope.

  Definition vec2 := (T * T)%type.
  Definition vec6 := (vec3 T * vec3 T)%type.
  Definition list6 (v : vec6) : list T := list3 (fst v) ++ list3 (snd v).
  (** vector.rs:364-371, 400-407, 193-195 at size two and six *)
  Definition add2 (u v : vec2) : vec2 := (fst u + fst v, snd u + snd v).
  Definition neg2 (u : vec2) : vec2 := (- fst u, - snd u).
  Definition neg6 (u : vec6) : vec6 := (neg3 (fst u), neg3 (snd u)).
  Definition scale6 (u : vec6) (s : T) : vec6 := (scale3 (fst u) s, scale3 (snd u) s).

  (** spatial/mod.rs:49-53, 59-61, 70-75 *)
  Definition small_angle_so3_sq : T * T := (cbrt (of_ratio 360 1 * epsilon), cbrt (of_ratio 2520 1 * epsilon)).
  Definition small_angle_inverse_so3_sq : T := cbrt (of_ratio 15120 1 * epsilon).
  Definition small_angle_se3_sq : T * T * T :=
    (cbrt (of_ratio 2520 1 * epsilon), sqrt (sqrt (of_ratio 20160 1 * epsilon)), sqrt (sqrt (of_ratio 181440 1 * epsilon))).

  (** ** lie/mod.rs *)

  (** lie/mod.rs:29-32 *)
  Definition skew3 (v : vec3 T) : mat T :=
    let '(x, y, z) := v in [[zero; - z; y]; [z; zero; - x]; [- y; x; zero]].

  (** lie/mod.rs:37-57 *)
  Definition left_jacobian_so3 (phi : vec3 T) : mat T :=
    let theta_sq := dot3 phi phi in
    let skew := skew3 phi in
    let skew_sq := mat_mul 3 3 3 skew skew in
    let '(thresh1, thresh2) := small_angle_so3_sq in
    let theta := sqrt theta_sq in
    let coeff1 := if theta_sq <? thresh1 then half - theta_sq / of_ratio 24 1 else (one - cos theta) / theta_sq in
    let coeff2 :=
      if theta_sq <? thresh2 then one / of_ratio 6 1 - theta_sq / of_ratio 120 1
      else (theta - sin theta) / (theta_sq * theta) in
    mat_add (mat_add (identity 3) (mat_scale 3 3 skew coeff1)) (mat_scale 3 3 skew_sq coeff2).

  (** lie/mod.rs:62-74 *)
  Definition inverse_left_jacobian_so3 (phi : vec3 T) : mat T :=
    let theta_sq := dot3 phi phi in
    let skew := skew3 phi in
    let skew_sq := mat_mul 3 3 3 skew skew in
    let coeff3 :=
      if theta_sq <? small_angle_inverse_so3_sq then one / of_ratio 12 1 + theta_sq / of_ratio 720 1
      else
        let theta := sqrt theta_sq in
        let h := theta * half in
        (one - h * (cos h / sin h)) / theta_sq in
    mat_add (mat_sub (identity 3) (mat_scale 3 3 skew half)) (mat_scale 3 3 skew_sq coeff3).

  (** lie/mod.rs:79-118 *)
  Definition q_matrix_se3 (rho phi : vec3 T) : mat T :=
    let theta_sq := dot3 phi phi in
    let rho_skew := skew3 rho in
    let phi_skew := skew3 phi in
    let '(thresh_c2, thresh_c3, thresh_c5) := small_angle_se3_sq in
    let theta := sqrt theta_sq in
    let theta3 := theta_sq * theta in
    let theta4 := theta_sq * theta_sq in
    let theta5 := theta4 * theta in
    let coeff2 :=
      if theta_sq <? thresh_c2 then one / of_ratio 6 1 - theta_sq / of_ratio 120 1 else (theta - sin theta) / theta3 in
    let coeff3 :=
      if theta_sq <? thresh_c3 then - one / of_ratio 24 1 + theta_sq / of_ratio 720 1
      else (one - theta_sq * half - cos theta) / theta4 in
    let coeff5 :=
      if theta_sq <? thresh_c5 then - one / of_ratio 120 1 + theta_sq / of_ratio 5040 1
      else (theta - sin theta - theta3 / of_ratio 6 1) / theta5 in
    let coeff4 := (coeff3 - of_ratio 3 1 * coeff5) * half in
    let mul := mat_mul 3 3 3 in
    let phi_rho_phi := mul (mul phi_skew rho_skew) phi_skew in
    let term2 := mat_add (mat_add (mul phi_skew rho_skew) (mul rho_skew phi_skew)) phi_rho_phi in
    let term3 := mat_sub (mat_add (mul (mul phi_skew phi_skew) rho_skew) (mul (mul rho_skew phi_skew) phi_skew))
                         (mat_scale 3 3 phi_rho_phi (of_ratio 3 1)) in
    let term4 := mat_add (mul (mul (mul phi_skew rho_skew) phi_skew) phi_skew) (mul (mul (mul phi_skew phi_skew) rho_skew) phi_skew) in
    mat_sub (mat_sub (mat_add (mat_scale 3 3 rho_skew half) (mat_scale 3 3 term2 coeff2)) (mat_scale 3 3 term3 coeff3))
            (mat_scale 3 3 term4 coeff4).

  (** the block matrix that lines 129-139 and 152-162 fill in *)
  Definition blocks (corner top_right : mat T) : mat T :=
    mat_fn 6 6 (fun i k =>
      if (Nat.ltb i 3 && Nat.ltb k 3)%bool then mget corner i k
      else if Nat.ltb i 3 then mget top_right i (k - 3)
      else if Nat.leb 3 k then mget corner (i - 3) (k - 3)
      else zero).
  (** lie/mod.rs:123-140 *)
  Definition left_jacobian_se3 (twist : vec6) : mat T :=
    let '(rho, phi) := twist in blocks (left_jacobian_so3 phi) (q_matrix_se3 rho phi).
  (** lie/mod.rs:144-163 *)
  Definition inverse_left_jacobian_se3 (twist : vec6) : mat T :=
    let '(rho, phi) := twist in
    let j_inv := inverse_left_jacobian_so3 phi in
    let q_block := q_matrix_se3 rho phi in
    let top_right := mat_neg (mat_mul 3 3 3 (mat_mul 3 3 3 j_inv q_block) j_inv) in
    blocks j_inv top_right.

  (** ** so2.rs *)

  (** so2.rs:12-15 *)
  Record so2 := SO2 { so2_cos : T; so2_sin : T }.
  (** so2.rs:21-26, 31-36, 41-43 *)
  Definition so2_identity : so2 := SO2 one zero.
  Definition so2_from_angle (theta : T) : so2 := SO2 (cos theta) (sin theta).
  Definition so2_cos_sin (r : so2) : T * T := (so2_cos r, so2_sin r).
  (** so2.rs:48-53, 58-63 *)
  Definition so2_compose (a b : so2) : so2 :=
    SO2 (so2_cos a * so2_cos b - so2_sin a * so2_sin b) (so2_cos a * so2_sin b + so2_sin a * so2_cos b).
  Definition so2_inverse (a : so2) : so2 := SO2 (so2_cos a) (- so2_sin a).
  (** so2.rs:67-73 *)
  Definition so2_act (a : so2) (p : vec2) : vec2 :=
    (so2_cos a * fst p - so2_sin a * snd p, so2_sin a * fst p + so2_cos a * snd p).
  (** so2.rs:78-80, 85-87 *)
  Definition so2_exp (theta : T) : so2 := so2_from_angle theta.
  Definition so2_log (a : so2) : T := atan2 (so2_sin a) (so2_cos a).
  (** so2.rs:91-93, 98-101, 106-108, 112-114 *)
  Definition so2_hat (theta : T) : mat T := [[zero; - theta]; [theta; zero]].
  Definition so2_vee (m : mat T) : T := mget m 1 0.
  Definition so2_adjoint (a : so2) : T := one.
  Definition so2_to_matrix (a : so2) : mat T := [[so2_cos a; - so2_sin a]; [so2_sin a; so2_cos a]].
  (** so2.rs:120-135 *)
  Definition so2_try_from_matrix (m : mat T) : option so2 :=
    let c := mget m 0 0 in let m01 := mget m 0 1 in
    let s := mget m 1 0 in let m11 := mget m 1 1 in
    let n := hypot c s in
    if (negb (is_finite n) || (n <=? epsilon) || (abs (n - one) >? epsilon_x30))%bool then None
    else
      let c := c / n in
      let s := s / n in
      let second_column_error := hypot (m01 + s) (m11 - c) in
      if (negb (is_finite second_column_error) || (second_column_error >? epsilon_x30))%bool then None
      else Some (SO2 c s).
  (** so2.rs:140-142 *)
  Definition so2_interpolate (a b : so2) (amount : T) : so2 :=
    so2_compose a (so2_exp (so2_log (so2_compose (so2_inverse a) b) * amount)).
  (** so2.rs:147-149, 162-164, 179-185 *)
  Definition so2_norm_squared (a : so2) : T := so2_cos a * so2_cos a + so2_sin a * so2_sin a.
  Definition so2_norm (a : so2) : T := sqrt (so2_norm_squared a).
  Definition so2_normalized (a : so2) : so2 :=
    let scale := recip (so2_norm a) in SO2 (so2_cos a * scale) (so2_sin a * scale).
  (** so2.rs:190-213: the four jacobians *)
  Definition so2_left_jacobian (theta : T) : T := one.
  Definition so2_right_jacobian (theta : T) : T := one.
  Definition so2_left_jacobian_inverse (theta : T) : T := one.
  Definition so2_right_jacobian_inverse (theta : T) : T := one.

  (** ** so3.rs: the wrapped quaternion stands for the rotation *)

  Definition so3 := quaternion T.
  (** so3.rs:35-39, 45-49, 54-58 *)
  Definition so3_identity : so3 := quat_identity.
  Definition so3_from_quaternion (q : quaternion T) : so3 := quat_normalized q.
  Definition so3_try_from_quaternion (q : quaternion T) : option so3 := quat_try_normalized q.
  (** so3.rs:70-74, 79-83, 87-89 *)
  Definition so3_compose (a b : so3) : so3 := quat_mul a b.
  Definition so3_inverse (a : so3) : so3 := conjugate a.
  Definition so3_act (a : so3) (p : vec3 T) : vec3 T := transform_point a p.
  (** so3.rs:95-99, 103-105, 109-111, 115-118 *)
  Definition so3_exp (phi : vec3 T) : so3 := from_scaled_axis phi.
  Definition so3_log (a : so3) : vec3 T := to_scaled_axis a.
  Definition so3_hat (phi : vec3 T) : mat T := skew3 phi.
  Definition so3_vee (m : mat T) : vec3 T := (mget m 2 1, mget m 0 2, mget m 1 0).
  (** so3.rs:122-124, 128-130 *)
  Definition so3_adjoint (a : so3) : mat T := to_rotation_matrix a.
  Definition so3_to_matrix (a : so3) : mat T := to_rotation_matrix a.
  (** so3.rs:136-155 *)
  Definition so3_try_from_matrix (m : mat T) : option so3 :=
    let gram := mat_mul 3 3 3 (transpose 3 3 m) m in
    if negb (forallb (fun row => forallb (fun column =>
         let target := if Nat.eqb row column then one else zero in
         let error := abs (mget gram row column - target) in
         negb (negb (is_finite error) || (error >? epsilon_x30))%bool) (range 0 3)) (range 0 3)) then None
    else
      let d := determinant 3 m in
      if (negb (is_finite d) || (d <=? zero))%bool then None else try_from_rotation_matrix m.
  (** the matrix of lines 215-219 and 220-224, whose columns are the three axes *)
  Definition axes (first second third : vec3 T) : mat T :=
    mat_fn 3 3 (fun row column =>
      vget (list3 (match column with 0 => first | 1 => second | _ => third end)) row).
  (** so3.rs:191-226 *)
  Definition from_two_direction_pairs (po so pr sr : vec3 T) : option so3 :=
    if (negb (is_finite3 po) || negb (is_finite3 so) || negb (is_finite3 pr) || negb (is_finite3 sr))%bool then None
    else
      match try_normalized3 po with None => None | Some observed_first =>
      match try_normalized3 (cross3 observed_first so) with None => None | Some observed_third =>
      let observed_second := cross3 observed_third observed_first in
      match try_normalized3 pr with None => None | Some reference_first =>
      match try_normalized3 (cross3 reference_first sr) with None => None | Some reference_third =>
      let reference_second := cross3 reference_third reference_first in
      let observed_axes := axes observed_first observed_second observed_third in
      let reference_axes := axes reference_first reference_second reference_third in
      so3_try_from_matrix (mat_mul 3 3 3 reference_axes (transpose 3 3 observed_axes))
      end end end end.
  (** so3.rs:233-237, 242-246 *)
  Definition so3_interpolate (a b : so3) (amount : T) : so3 := slerp a b amount.
  Definition so3_normalized (a : so3) : so3 := quat_normalized a.
  (** so3.rs:250-252, 256-258, 270-272, 276-278 *)
  Definition so3_left_jacobian (phi : vec3 T) : mat T := left_jacobian_so3 phi.
  Definition so3_right_jacobian (phi : vec3 T) : mat T := left_jacobian_so3 (neg3 phi).
  Definition so3_left_jacobian_inverse (phi : vec3 T) : mat T := inverse_left_jacobian_so3 phi.
  Definition so3_right_jacobian_inverse (phi : vec3 T) : mat T := inverse_left_jacobian_so3 (neg3 phi).

  (** ** se2.rs *)

  (** se2.rs:13-16 *)
  Record se2 := SE2 { se2_rotation : so2; se2_translation : vec2 }.
  (** se2.rs:22-27 *)
  Definition se2_identity : se2 := SE2 so2_identity (zero, zero).
  (** se2.rs:55-60, 65-71, 75-77 *)
  Definition se2_compose (a b : se2) : se2 :=
    SE2 (so2_compose (se2_rotation a) (se2_rotation b))
        (add2 (so2_act (se2_rotation a) (se2_translation b)) (se2_translation a)).
  Definition se2_inverse (a : se2) : se2 :=
    let r_inv := so2_inverse (se2_rotation a) in SE2 r_inv (neg2 (so2_act r_inv (se2_translation a))).
  Definition se2_act (a : se2) (p : vec2) : vec2 := add2 (so2_act (se2_rotation a) p) (se2_translation a).
  (** se2.rs:83-99 *)
  Definition se2_exp (twist : vec3 T) : se2 :=
    let '(lin_x, lin_y, omega) := twist in
    let theta_sq := omega * omega in
    let '(a, b) :=
      if theta_sq <? small_angle_sq then
        (one - theta_sq / of_ratio 6 1, omega * (half - theta_sq / of_ratio 24 1))
      else (sin omega / omega, (one - cos omega) / omega) in
    SE2 (so2_exp omega) (a * lin_x - b * lin_y, b * lin_x + a * lin_y).
  (** the pair (alpha, beta) of lines 106-111 and 264-269 *)
  Definition se2_alpha_beta (omega theta_sq : T) : T * T :=
    if theta_sq <? small_angle_sq then (one - theta_sq / of_ratio 12 1, omega * half)
    else let h := omega * half in (h * (cos h / sin h), h).
  (** se2.rs:103-118 *)
  Definition se2_log (a : se2) : vec3 T :=
    let omega := so2_log (se2_rotation a) in
    let theta_sq := omega * omega in
    let '(alpha, beta) := se2_alpha_beta omega theta_sq in
    let '(pos_x, pos_y) := se2_translation a in
    (alpha * pos_x + beta * pos_y, - beta * pos_x + alpha * pos_y, omega).
  (** se2.rs:122-130, 134-141, 145-148, 152-160 *)
  Definition se2_adjoint (a : se2) : mat T :=
    let c := so2_cos (se2_rotation a) in let s := so2_sin (se2_rotation a) in
    let '(pos_x, pos_y) := se2_translation a in
    [[c; - s; pos_y]; [s; c; - pos_x]; [zero; zero; one]].
  Definition se2_hat (twist : vec3 T) : mat T :=
    let '(lin_x, lin_y, omega) := twist in
    [[zero; - omega; lin_x]; [omega; zero; lin_y]; [zero; zero; zero]].
  Definition se2_vee (m : mat T) : vec3 T := (mget m 0 2, mget m 1 2, mget m 1 0).
  Definition se2_to_matrix (a : se2) : mat T :=
    let c := so2_cos (se2_rotation a) in let s := so2_sin (se2_rotation a) in
    let '(pos_x, pos_y) := se2_translation a in
    [[c; - s; pos_x]; [s; c; pos_y]; [zero; zero; one]].
  (** se2.rs:167-186 *)
  Definition se2_try_from_matrix (m : mat T) : option se2 :=
    let m02 := mget m 0 2 in let m12 := mget m 1 2 in
    let m20 := mget m 2 0 in let m21 := mget m 2 1 in let m22 := mget m 2 2 in
    if (negb (is_finite m02) || negb (is_finite m12) || negb (is_finite m20) || negb (is_finite m21)
        || negb (is_finite m22) || (abs m20 >? epsilon_x30) || (abs m21 >? epsilon_x30)
        || (abs (m22 - one) >? epsilon_x30))%bool then None
    else
      match so2_try_from_matrix [[mget m 0 0; mget m 0 1]; [mget m 1 0; mget m 1 1]] with
      | None => None
      | Some rotation => Some (SE2 rotation (m02, m12))
      end.
  (** se2.rs:191-193 *)
  Definition se2_interpolate (a b : se2) (amount : T) : se2 :=
    se2_compose a (se2_exp (scale3 (se2_log (se2_compose (se2_inverse a) b)) amount)).
  (** se2.rs:207-234 *)
  Definition se2_left_jacobian (twist : vec3 T) : mat T :=
    let '(rho_x, rho_y, omega) := twist in
    let theta_sq := omega * omega in
    let '(a, b, p_coeff, r_coeff) :=
      if theta_sq <? small_angle_sq then
        (one - theta_sq / of_ratio 6 1, omega * (half - theta_sq / of_ratio 24 1),
         half - theta_sq / of_ratio 24 1, omega * (one / of_ratio 6 1 - theta_sq / of_ratio 120 1))
      else
        let s := sin omega in let c := cos omega in
        (s / omega, (one - c) / omega, (one - c) / theta_sq, (omega - s) / theta_sq) in
    let coupling_x := p_coeff * rho_y + r_coeff * rho_x in
    let coupling_y := r_coeff * rho_y - p_coeff * rho_x in
    [[a; - b; coupling_x]; [b; a; coupling_y]; [zero; zero; one]].
  (** se2.rs:238-240 *)
  Definition se2_right_jacobian (twist : vec3 T) : mat T := se2_left_jacobian (neg3 twist).
  (** se2.rs:245-273 *)
  Definition se2_left_jacobian_inverse (twist : vec3 T) : mat T :=
    let '(rho_x, rho_y, omega) := twist in
    let theta_sq := omega * omega in
    let '(p_coeff, r_coeff) :=
      if theta_sq <? small_angle_sq then
        (half - theta_sq / of_ratio 24 1, omega * (one / of_ratio 6 1 - theta_sq / of_ratio 120 1))
      else
        let s := sin omega in let c := cos omega in ((one - c) / theta_sq, (omega - s) / theta_sq) in
    let coupling_x := p_coeff * rho_y + r_coeff * rho_x in
    let coupling_y := r_coeff * rho_y - p_coeff * rho_x in
    let '(alpha, beta) := se2_alpha_beta omega theta_sq in
    let corr_x := - (alpha * coupling_x + beta * coupling_y) in
    let corr_y := - (- beta * coupling_x + alpha * coupling_y) in
    [[alpha; beta; corr_x]; [- beta; alpha; corr_y]; [zero; zero; one]].
  (** se2.rs:277-279 *)
  Definition se2_right_jacobian_inverse (twist : vec3 T) : mat T := se2_left_jacobian_inverse (neg3 twist).

  (** ** twist.rs and wrench.rs: (linear, angular) and (force, torque) *)

  (** twist.rs:31-34, wrench.rs:26-29 *)
  Record twist := Twist { linear : vec3 T; angular : vec3 T }.
  Record wrench := Wrench { force : vec3 T; torque : vec3 T }.
  (** twist.rs:62-67, 79-85, 96-100, 112-114, 125-127; wrench.rs:57-62, 74-80, 91-95, 107-109, 120-122 *)
  Definition twist_zeros : twist := Twist zeros3 zeros3.
  Definition twist_from_vector (v : vec6) : twist := Twist (fst v) (snd v).
  Definition twist_to_vector (t : twist) : vec6 := (linear t, angular t).
  Definition wrench_zeros : wrench := Wrench zeros3 zeros3.
  Definition wrench_from_vector (v : vec6) : wrench := Wrench (fst v) (snd v).
  Definition wrench_to_vector (w : wrench) : vec6 := (force w, torque w).
  (** twist.rs:150-155, 211-246; wrench.rs:145-150, 153-188 *)
  Definition twist_scale (t : twist) (s : T) : twist := Twist (scale3 (linear t) s) (scale3 (angular t) s).
  Definition twist_add (a b : twist) : twist := Twist (add3 (linear a) (linear b)) (add3 (angular a) (angular b)).
  Definition twist_sub (a b : twist) : twist := Twist (sub3 (linear a) (linear b)) (sub3 (angular a) (angular b)).
  Definition twist_neg (a : twist) : twist := Twist (neg3 (linear a)) (neg3 (angular a)).
  Definition wrench_scale (w : wrench) (s : T) : wrench := Wrench (scale3 (force w) s) (scale3 (torque w) s).
  Definition wrench_add (a b : wrench) : wrench := Wrench (add3 (force a) (force b)) (add3 (torque a) (torque b)).
  Definition wrench_sub (a b : wrench) : wrench := Wrench (sub3 (force a) (force b)) (sub3 (torque a) (torque b)).
  Definition wrench_neg (a : wrench) : wrench := Wrench (neg3 (force a)) (neg3 (torque a)).
  (** twist.rs:169-174, 189-194, 206-208 *)
  Definition twist_cross (a b : twist) : twist :=
    Twist (add3 (cross3 (angular a) (linear b)) (cross3 (linear a) (angular b))) (cross3 (angular a) (angular b)).
  Definition cross_wrench (a : twist) (w : wrench) : wrench :=
    Wrench (cross3 (angular a) (force w)) (add3 (cross3 (angular a) (torque w)) (cross3 (linear a) (force w))).
  Definition dot_wrench (a : twist) (w : wrench) : T := dot3 (linear a) (force w) + dot3 (angular a) (torque w).

  (** ** inertia.rs *)

  (** inertia.rs:28-32 *)
  Record inertia := Inertia { mass : T; center_of_mass : vec3 T; rotational_inertia : mat T }.
  (** inertia.rs:76-99 *)
  Definition inertia_new (m : T) (c : vec3 T) (r : mat T) : Res inertia SpatialError :=
    if (negb (is_finite m) || negb (is_finite3 c) || negb (mat_is_finite r))%bool then Err SpNonFinite
    else if m <=? zero then Err SpNonPositiveMass
    else if negb (is_symmetric 3 r) then Err SpNotSymmetric
    else if existsb (fun index => mget r index index <=? zero) (range 0 3) then Err SpNonPositiveInertia
    else Ok (Inertia m c r).
  (** inertia.rs:116-126 *)
  Definition from_diagonal_inertia (m : T) (c d : vec3 T) : Res inertia SpatialError :=
    inertia_new m c (from_diagonal 3 (list3 d)).
  (** inertia.rs:165-176 *)
  Definition inertia_about (b : inertia) (point : vec3 T) : mat T :=
    let offset := sub3 point (center_of_mass b) in
    let distance_squared := dot3 offset offset in
    mat_fn 3 3 (fun row col =>
      let spread := if Nat.eqb row col then distance_squared else zero in
      mget (rotational_inertia b) row col
        + mass b * (spread - vget (list3 offset) row * vget (list3 offset) col)).
  (** inertia.rs:197-204, 223-225, 243-245 *)
  Definition momentum (b : inertia) (v : twist) : wrench :=
    let balance_point_velocity := add3 (linear v) (cross3 (angular v) (center_of_mass b)) in
    let lin := scale3 balance_point_velocity (mass b) in
    let ang := add3 (of_list3 (mat_vec 3 3 (rotational_inertia b) (list3 (angular v)))) (cross3 (center_of_mass b) lin) in
    Wrench lin ang.
  Definition bias_wrench (b : inertia) (v : twist) : wrench := cross_wrench v (momentum b v).
  Definition kinetic_energy (b : inertia) (v : twist) : T := half * dot_wrench v (momentum b v).
  (** inertia.rs:272-287 *)
  Definition inertia_to_matrix (b : inertia) : mat T :=
    let balance_offset := skew3 (center_of_mass b) in
    let about_origin := inertia_about b zeros3 in
    fold_left (fun entries i =>
      fold_left (fun entries j =>
        let offset := mass b * mget balance_offset i j in
        mset (mset (mset entries i (j + 3) (- offset)) (i + 3) j offset) (i + 3) (j + 3) (mget about_origin i j))
        (range 0 3) (mset entries i i (mass b))) (range 0 3) (mat_zeros 6 6).
  (** inertia.rs:306-317 *)
  Definition combined (a b : inertia) : inertia :=
    let m := mass a + mass b in
    let c := scale3 (add3 (scale3 (center_of_mass a) (mass a)) (scale3 (center_of_mass b) (mass b))) (one / m) in
    Inertia m c (mat_add (inertia_about a c) (inertia_about b c)).
  (** inertia.rs:322-326 *)
  Definition inertia_is_finite (b : inertia) : bool :=
    (is_finite (mass b) && is_finite3 (center_of_mass b) && mat_is_finite (rotational_inertia b))%bool.

  (** ** se3.rs *)

  (** se3.rs:16-19 *)
  Record se3 := SE3 { se3_rotation : so3; se3_translation : vec3 T }.
  (** se3.rs:25-30 *)
  Definition se3_identity : se3 := SE3 so3_identity zeros3.
  (** se3.rs:58-63, 68-74, 78-80 *)
  Definition se3_compose (a b : se3) : se3 :=
    SE3 (so3_compose (se3_rotation a) (se3_rotation b))
        (add3 (so3_act (se3_rotation a) (se3_translation b)) (se3_translation a)).
  Definition se3_inverse (a : se3) : se3 :=
    let r_inv := so3_inverse (se3_rotation a) in SE3 r_inv (neg3 (so3_act r_inv (se3_translation a))).
  Definition se3_act (a : se3) (p : vec3 T) : vec3 T := add3 (so3_act (se3_rotation a) p) (se3_translation a).
  (** se3.rs:86-94, 98-104 *)
  Definition se3_exp (twist : vec6) : se3 :=
    let '(lin, phi) := twist in SE3 (so3_exp phi) (of_list3 (mat_vec 3 3 (left_jacobian_so3 phi) (list3 lin))).
  Definition se3_log (a : se3) : vec6 :=
    let phi := so3_log (se3_rotation a) in
    (of_list3 (mat_vec 3 3 (inverse_left_jacobian_so3 phi) (list3 (se3_translation a))), phi).
  (** se3.rs:108-122, 137-151 *)
  Definition se3_adjoint (a : se3) : mat T :=
    let r := so3_to_matrix (se3_rotation a) in
    let skew_t_r := mat_mul 3 3 3 (skew3 (se3_translation a)) r in
    fold_left (fun adj i => fold_left (fun adj j =>
      mset (mset (mset adj i j (mget r i j)) i (j + 3) (mget skew_t_r i j)) (i + 3) (j + 3) (mget r i j))
      (range 0 3) adj) (range 0 3) (mat_zeros 6 6).
  Definition force_adjoint (a : se3) : mat T :=
    let r := so3_to_matrix (se3_rotation a) in
    let skew_t_r := mat_mul 3 3 3 (skew3 (se3_translation a)) r in
    fold_left (fun adj i => fold_left (fun adj j =>
      mset (mset (mset adj i j (mget r i j)) (i + 3) j (mget skew_t_r i j)) (i + 3) (j + 3) (mget r i j))
      (range 0 3) adj) (range 0 3) (mat_zeros 6 6).
  (** se3.rs:173-177, 193-197, 211-216, 230-235 *)
  Definition act_twist (a : se3) (t : twist) : twist :=
    let ang := so3_act (se3_rotation a) (angular t) in
    Twist (add3 (so3_act (se3_rotation a) (linear t)) (cross3 (se3_translation a) ang)) ang.
  Definition act_wrench (a : se3) (w : wrench) : wrench :=
    let f := so3_act (se3_rotation a) (force w) in
    Wrench f (add3 (so3_act (se3_rotation a) (torque w)) (cross3 (se3_translation a) f)).
  Definition inverse_act_twist (a : se3) (t : twist) : twist :=
    let inverse_rotation := so3_inverse (se3_rotation a) in
    Twist (so3_act inverse_rotation (sub3 (linear t) (cross3 (se3_translation a) (angular t))))
          (so3_act inverse_rotation (angular t)).
  Definition inverse_act_wrench (a : se3) (w : wrench) : wrench :=
    let inverse_rotation := so3_inverse (se3_rotation a) in
    Wrench (so3_act inverse_rotation (force w))
           (so3_act inverse_rotation (sub3 (torque w) (cross3 (se3_translation a) (force w)))).
  (** se3.rs:257-264, 283-285 *)
  Definition act_inertia (a : se3) (b : inertia) : inertia :=
    let r := so3_to_matrix (se3_rotation a) in
    Inertia (mass b) (se3_act a (center_of_mass b))
            (mat_mul 3 3 3 (mat_mul 3 3 3 r (rotational_inertia b)) (transpose 3 3 r)).
  Definition inverse_act_inertia (a : se3) (b : inertia) : inertia := act_inertia (se3_inverse a) b.
  (** se3.rs:289-297, 301-304 *)
  Definition se3_hat (t : vec6) : mat T :=
    let '((lin_x, lin_y, lin_z), (ang_x, ang_y, ang_z)) := t in
    [[zero; - ang_z; ang_y; lin_x]; [ang_z; zero; - ang_x; lin_y]; [- ang_y; ang_x; zero; lin_z]; [zero; zero; zero; zero]].
  Definition se3_vee (m : mat T) : vec6 :=
    ((mget m 0 3, mget m 1 3, mget m 2 3), (mget m 2 1, mget m 0 2, mget m 1 0)).
  (** se3.rs:308-320 *)
  Definition se3_to_matrix (a : se3) : mat T :=
    let r := so3_to_matrix (se3_rotation a) in
    mset (fold_left (fun m i =>
      mset (fold_left (fun m j => mset m i j (mget r i j)) (range 0 3) m) i 3 (vget (list3 (se3_translation a)) i))
      (range 0 3) (mat_zeros 4 4)) 3 3 one.
  (** se3.rs:327-355 *)
  Definition se3_try_from_matrix (m : mat T) : option se3 :=
    let m03 := mget m 0 3 in let m13 := mget m 1 3 in let m23 := mget m 2 3 in
    let m30 := mget m 3 0 in let m31 := mget m 3 1 in let m32 := mget m 3 2 in let m33 := mget m 3 3 in
    if (negb (is_finite m03) || negb (is_finite m13) || negb (is_finite m23) || negb (is_finite m30)
        || negb (is_finite m31) || negb (is_finite m32) || negb (is_finite m33)
        || (abs m30 >? epsilon_x30) || (abs m31 >? epsilon_x30) || (abs m32 >? epsilon_x30)
        || (abs (m33 - one) >? epsilon_x30))%bool then None
    else
      match so3_try_from_matrix [[mget m 0 0; mget m 0 1; mget m 0 2]; [mget m 1 0; mget m 1 1; mget m 1 2];
                                 [mget m 2 0; mget m 2 1; mget m 2 2]] with
      | None => None
      | Some rotation => Some (SE3 rotation (m03, m13, m23))
      end.
  (** se3.rs:360-362 *)
  Definition se3_interpolate (a b : se3) (amount : T) : se3 :=
    se3_compose a (se3_exp (scale6 (se3_log (se3_compose (se3_inverse a) b)) amount)).
  (** se3.rs:374-376, 380-382, 386-388, 392-394 *)
  Definition se3_left_jacobian (t : vec6) : mat T := left_jacobian_se3 t.
  Definition se3_right_jacobian (t : vec6) : mat T := left_jacobian_se3 (neg6 t).
  Definition se3_left_jacobian_inverse (t : vec6) : mat T := inverse_left_jacobian_se3 t.
  Definition se3_right_jacobian_inverse (t : vec6) : mat T := inverse_left_jacobian_se3 (neg6 t).

  (** ** free_joint.rs *)

  (** free_joint.rs:27-30, 48-50, 63-68 *)
  Record free_joint := FreeJoint { fj_pose : se3; fj_velocity : twist }.
  Definition free_joint_identity : free_joint := FreeJoint se3_identity twist_zeros.
  (** free_joint.rs:98-105 *)
  Definition from_generalized_vectors (place : vec3 T) (orientation : T * T * T * T) (velocity : vec6) : option free_joint :=
    match quat_try_normalized (quat_from_array orientation) with
    | None => None
    | Some q => Some (FreeJoint (SE3 (so3_from_quaternion q) place) (twist_from_vector velocity))
    end.
  (** free_joint.rs:116-120, 133-135; the seven numbers are the place followed by the orientation *)
  Definition generalized_position (s : free_joint) : vec3 T * (T * T * T * T) :=
    (se3_translation (fj_pose s), quat_as_array (se3_rotation (fj_pose s))).
  Definition generalized_velocity (s : free_joint) : vec6 := twist_to_vector (fj_velocity s).
End Lie.
Arguments vec2 T : clear implicits.
Arguments vec6 T : clear implicits.
Arguments so2 T : clear implicits.
Arguments so3 T : clear implicits.
Arguments se2 T : clear implicits.
Arguments se3 T : clear implicits.
Arguments twist T : clear implicits.
Arguments wrench T : clear implicits.
Arguments inertia T : clear implicits.
Arguments free_joint T : clear implicits.
Arguments SO2 {T} so2_cos so2_sin.
Arguments SE2 {T} se2_rotation se2_translation.
Arguments SE3 {T} se3_rotation se3_translation.
Arguments Twist {T} linear angular.
Arguments Wrench {T} force torque.
Arguments Inertia {T} mass center_of_mass rotational_inertia.
Arguments FreeJoint {T} fj_pose fj_velocity.

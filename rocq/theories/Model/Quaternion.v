(** crates/multicalc/src/spatial/quaternion.rs and the thresholds of spatial/mod.rs, over any scalar.

    A [Vector<3, T>] is written as the triple of its components, and goes through the list of Model/Vector.v for the
    operations the code takes from vector.rs. *)
From Coq Require Import ZArith List Bool.
From Verif Require Import Base.Scalar Base.Lists Model.Vector Model.Matrix.
Import ListNotations.

Section Quaternion.
  Context {T : Type} {NT : Num T}.
  Local Open Scope num_scope.

  Definition vec3 := (T * T * T)%type.
  Definition list3 (v : vec3) : list T := let '(x, y, z) := v in [x; y; z].
  Definition of_list3 (l : list T) : vec3 := (vget l 0, vget l 1, vget l 2).

  (** vector.rs at size three: 364-371, 382-389, 400-407, 193-195, 418-425, 212-218, 228-230, 240-242, 253-255, 264-266,
      279-285 *)
  Definition add3 (u v : vec3) : vec3 := of_list3 (vec_add (list3 u) (list3 v)).
  Definition sub3 (u v : vec3) : vec3 := of_list3 (vec_sub (list3 u) (list3 v)).
  Definition neg3 (u : vec3) : vec3 := of_list3 (vec_neg (list3 u)).
  Definition scale3 (u : vec3) (s : T) : vec3 := of_list3 (vec_scale (list3 u) s).
  Definition div3 (u : vec3) (s : T) : vec3 := of_list3 (vec_div (list3 u) s).
  Definition dot3 (u v : vec3) : T := dot (list3 u) (list3 v).
  Definition norm_squared3 (u : vec3) : T := norm_squared (list3 u).
  Definition norm3 (u : vec3) : T := norm (list3 u).
  Definition is_finite3 (u : vec3) : bool := vec_is_finite (list3 u).
  Definition normalized3 (u : vec3) : vec3 := of_list3 (normalized (list3 u)).
  Definition try_normalized3 (u : vec3) : option vec3 := option_map of_list3 (try_normalized (list3 u)).
  Definition zeros3 : vec3 := (zero, zero, zero).

  (** spatial/mod.rs:32-34, 40-42 *)
  Definition small_angle : T := epsilon_x30.
  Definition small_angle_sq : T := small_angle * small_angle.

  (** quaternion.rs:34-39 *)
  Record quaternion := Quat { qw : T; qx : T; qy : T; qz : T }.

  (** quaternion.rs:51-66 *)
  Definition unit_direction (v : vec3) : option vec3 :=
    if negb (is_finite3 v) then None
    else
      let '(x, y, z) := v in
      let scale := max (max (abs x) (abs y)) (abs z) in
      if scale =? zero then None else try_normalized3 (div3 v scale).

  (** quaternion.rs:84-91 *)
  Definition quat_identity : quaternion := Quat one zero zero zero.
  (** quaternion.rs:96-99, 146-148 *)
  Definition quat_from_array (a : T * T * T * T) : quaternion := let '(w, x, y, z) := a in Quat w x y z.
  Definition quat_as_array (q : quaternion) : T * T * T * T := (qw q, qx q, qy q, qz q).
  (** quaternion.rs:104-107, 139-141 *)
  Definition from_scalar_vector (w : T) (v : vec3) : quaternion := let '(x, y, z) := v in Quat w x y z.
  Definition quat_vec (q : quaternion) : vec3 := (qx q, qy q, qz q).
  (** quaternion.rs:153-160 *)
  Definition conjugate (q : quaternion) : quaternion := Quat (qw q) (- qx q) (- qy q) (- qz q).
  (** quaternion.rs:165-167, 172-174, 179-181 *)
  Definition quat_norm_squared (q : quaternion) : T := qw q * qw q + qx q * qx q + qy q * qy q + qz q * qz q.
  Definition quat_norm (q : quaternion) : T := sqrt (quat_norm_squared q).
  Definition quat_dot (p q : quaternion) : T := qw p * qw q + qx p * qx q + qy p * qy q + qz p * qz q.
  (** quaternion.rs:637-648, 650-661, 663-674, 677-688 *)
  Definition quat_add (p q : quaternion) : quaternion := Quat (qw p + qw q) (qx p + qx q) (qy p + qy q) (qz p + qz q).
  Definition quat_sub (p q : quaternion) : quaternion := Quat (qw p - qw q) (qx p - qx q) (qy p - qy q) (qz p - qz q).
  Definition quat_neg (q : quaternion) : quaternion := Quat (- qw q) (- qx q) (- qy q) (- qz q).
  Definition quat_scale (q : quaternion) (s : T) : quaternion := Quat (qw q * s) (qx q * s) (qy q * s) (qz q * s).
  (** quaternion.rs:692-703 *)
  Definition quat_mul (p q : quaternion) : quaternion := Quat
    (qw p * qw q - qx p * qx q - qy p * qy q - qz p * qz q)
    (qw p * qx q + qx p * qw q + qy p * qz q - qz p * qy q)
    (qw p * qy q - qx p * qz q + qy p * qw q + qz p * qx q)
    (qw p * qz q + qx p * qy q - qy p * qx q + qz p * qw q).
  (** quaternion.rs:187-189, 195-197, 202-209 *)
  Definition quat_inverse (q : quaternion) : quaternion := quat_scale (conjugate q) (recip (quat_norm_squared q)).
  Definition quat_normalized (q : quaternion) : quaternion := quat_scale q (recip (quat_norm q)).
  Definition quat_try_normalized (q : quaternion) : option quaternion :=
    let n := quat_norm q in
    if (negb (is_finite n) || (n <=? epsilon))%bool then None else Some (quat_scale q (recip n)).

  (** quaternion.rs:216-234 *)
  Definition quat_exp (q : quaternion) : quaternion :=
    let vn_sq := qx q * qx q + qy q * qy q + qz q * qz q in
    let exp_scalar := exp (qw q) in
    let '(cos_v, sinc_v) :=
      if vn_sq <? small_angle_sq then (one - vn_sq / two, one - vn_sq / of_ratio 6 1)
      else let vector_norm := sqrt vn_sq in (cos vector_norm, sin vector_norm / vector_norm) in
    let scale := exp_scalar * sinc_v in
    Quat (exp_scalar * cos_v) (qx q * scale) (qy q * scale) (qz q * scale).

  (** quaternion.rs:244-259 *)
  Definition quat_log (q : quaternion) : quaternion :=
    let n := quat_norm q in
    let vector_norm := sqrt (qx q * qx q + qy q * qy q + qz q * qz q) in
    let coeff := if ((vector_norm <? small_angle) && (qw q >? zero))%bool then recip n else atan2 vector_norm (qw q) / vector_norm in
    Quat (log n) (qx q * coeff) (qy q * coeff) (qz q * coeff).

  (** quaternion.rs:280-295 *)
  Definition from_axis_angle (axis : vec3) (angle : T) : quaternion :=
    let axis_norm := sqrt (dot3 axis axis) in
    if axis_norm <=? epsilon then quat_identity
    else
      let h := angle * half in
      let scale := sin h / axis_norm in
      let '(x, y, z) := axis in
      Quat (cos h) (x * scale) (y * scale) (z * scale).

  (** quaternion.rs:302-323 *)
  Definition from_scaled_axis (rotvec : vec3) : quaternion :=
    let theta_sq := dot3 rotvec rotvec in
    let '(w, scale) :=
      if theta_sq <? small_angle_sq then (one - theta_sq / of_ratio 8 1, half - theta_sq / of_ratio 48 1)
      else
        let theta := sqrt theta_sq in
        let h := theta * half in
        (cos h, sin h / theta) in
    let '(x, y, z) := rotvec in
    Quat w (x * scale) (y * scale) (z * scale).

  (** quaternion.rs:328-338 *)
  Definition from_euler_zyx (roll pitch yaw : T) : quaternion :=
    let cos_roll := cos (roll * half) in let sin_roll := sin (roll * half) in
    let cos_pitch := cos (pitch * half) in let sin_pitch := sin (pitch * half) in
    let cos_yaw := cos (yaw * half) in let sin_yaw := sin (yaw * half) in
    Quat (cos_roll * cos_pitch * cos_yaw + sin_roll * sin_pitch * sin_yaw)
         (sin_roll * cos_pitch * cos_yaw - cos_roll * sin_pitch * sin_yaw)
         (cos_roll * sin_pitch * cos_yaw + sin_roll * cos_pitch * sin_yaw)
         (cos_roll * cos_pitch * sin_yaw - sin_roll * sin_pitch * cos_yaw).

  (** quaternion.rs:368-410 *)
  Definition from_two_vectors (from target : vec3) : quaternion :=
    match unit_direction from, unit_direction target with
    | Some a, Some b =>
        let h := add3 a b in
        let h_sq := norm_squared3 h in
        if h_sq =? zero then
          let '(x, y, z) := a in
          let principal :=
            if ((abs x <=? abs y) && (abs x <=? abs z))%bool then (one, zero, zero)
            else if abs y <=? abs z then (zero, one, zero) else (zero, zero, one) in
          from_scalar_vector zero (normalized3 (cross3 a principal))
        else quat_normalized (from_scalar_vector (h_sq * half) (cross3 a h))
    | _, _ => quat_identity
    end.

  (** quaternion.rs:417-455 *)
  Definition try_from_rotation_matrix (m : mat T) : option quaternion :=
    let quarter := of_ratio 1 4 in
    let m00 := mget m 0 0 in let m01 := mget m 0 1 in let m02 := mget m 0 2 in
    let m10 := mget m 1 0 in let m11 := mget m 1 1 in let m12 := mget m 1 2 in
    let m20 := mget m 2 0 in let m21 := mget m 2 1 in let m22 := mget m 2 2 in
    let trace := m00 + m11 + m22 in
    let q :=
      if trace >? zero then
        let scale := sqrt (trace + one) * two in
        Quat (quarter * scale) ((m21 - m12) / scale) ((m02 - m20) / scale) ((m10 - m01) / scale)
      else if ((m00 >? m11) && (m00 >? m22))%bool then
        let scale := sqrt (one + m00 - m11 - m22) * two in
        Quat ((m21 - m12) / scale) (quarter * scale) ((m01 + m10) / scale) ((m02 + m20) / scale)
      else if m11 >? m22 then
        let scale := sqrt (one + m11 - m00 - m22) * two in
        Quat ((m02 - m20) / scale) ((m01 + m10) / scale) (quarter * scale) ((m12 + m21) / scale)
      else
        let scale := sqrt (one + m22 - m00 - m11) * two in
        Quat ((m10 - m01) / scale) ((m02 + m20) / scale) ((m12 + m21) / scale) (quarter * scale) in
    quat_try_normalized q.

  (** quaternion.rs:460-480 *)
  Definition to_rotation_matrix (q : quaternion) : mat T :=
    let w := qw q in let x := qx q in let y := qy q in let z := qz q in
    [[one - two * (y * y + z * z); two * (x * y - w * z); two * (x * z + w * y)];
     [two * (x * y + w * z); one - two * (x * x + z * z); two * (y * z - w * x)];
     [two * (x * z - w * y); two * (y * z + w * x); one - two * (x * x + y * y)]].

  (** quaternion.rs:485-499 *)
  Definition to_axis_angle (q : quaternion) : vec3 * T :=
    let q := if qw q <? zero then quat_neg q else q in
    let vector_norm := sqrt (qx q * qx q + qy q * qy q + qz q * qz q) in
    if vector_norm <=? epsilon then ((one, zero, zero), zero)
    else
      let inv := recip vector_norm in
      ((qx q * inv, qy q * inv, qz q * inv), two * atan2 vector_norm (qw q)).

  (** quaternion.rs:505-521 *)
  Definition to_scaled_axis (q : quaternion) : vec3 :=
    let q := if qw q <? zero then quat_neg q else q in
    let vector_norm := sqrt (qx q * qx q + qy q * qy q + qz q * qz q) in
    let coeff := if vector_norm <? small_angle then two else (two * atan2 vector_norm (qw q)) / vector_norm in
    (qx q * coeff, qy q * coeff, qz q * coeff).

  (** quaternion.rs:529-546, the triple (roll, pitch, yaw) *)
  Definition to_euler_zyx (q : quaternion) : vec3 :=
    let w := qw q in let x := qx q in let y := qy q in let z := qz q in
    let sinp := two * (w * y - z * x) in
    if abs sinp >=? one - small_angle then
      let pitch := copysign (pi * half) sinp in
      let a := two * atan2 x w in
      let yaw := if sinp >? zero then - a else a in
      (zero, pitch, yaw)
    else
      (atan2 (two * (w * x + y * z)) (one - two * (x * x + y * y)),
       asin sinp,
       atan2 (two * (w * z + x * y)) (one - two * (y * y + z * z))).

  (** quaternion.rs:550-560, 579-581 *)
  Definition transform_point (q : quaternion) (point : vec3) : vec3 :=
    let '(x, y, z) := point in
    let rotated := quat_mul (quat_mul q (Quat zero x y z)) (conjugate q) in
    (qx rotated, qy rotated, qz rotated).
  Definition inverse_transform_point (q : quaternion) (point : vec3) : vec3 := transform_point (conjugate q) point.

  (** quaternion.rs:603-610 *)
  Definition rotation_angle_to (p q : quaternion) : T :=
    let relative := quat_mul (conjugate p) q in
    let vector_norm := sqrt (qx relative * qx relative + qy relative * qy relative + qz relative * qz relative) in
    two * atan2 vector_norm (abs (qw relative)).

  (** quaternion.rs:618-635 *)
  Definition slerp (p other : quaternion) (amount : T) : quaternion :=
    let d := quat_dot p other in
    let '(d, other) := if d <? zero then (- d, quat_neg other) else (d, other) in
    if d >? one - epsilon then
      quat_normalized (quat_add (quat_scale p (one - amount)) (quat_scale other amount))
    else
      let theta := acos d in
      let sin_theta := sin theta in
      let weight_start := sin ((one - amount) * theta) / sin_theta in
      let weight_end := sin (amount * theta) / sin_theta in
      quat_normalized (quat_add (quat_scale p weight_start) (quat_scale other weight_end)).
End Quaternion.
Arguments vec3 T : clear implicits.
Arguments quaternion T : clear implicits.
Arguments Quat {T} qw qx qy qz.

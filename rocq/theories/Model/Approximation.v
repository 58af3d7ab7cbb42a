(** crates/multicalc/src/approximation/ *)
From Coq Require Import ZArith List Bool.
From Verif Require Import Base.Scalar Base.Lists Model.Errors Model.Summation Model.Integration Model.Vector Model.Matrix Model.Derivative
  Model.VectorField.
Import ListNotations.

Section Approximation.
  Context {T : Type} {NT : Num T}.
  Local Open Scope num_scope.

  (** linear_approximation.rs:10-16 *)
  Record LinearApproximation := mkLin { lin_point : list T; lin_value : T; lin_gradient : list T; lin_summation : SummationMethod }.
  (** linear_approximation.rs:37-40 *)
  Definition lin_predict (m : LinearApproximation) (x : list T) : T :=
    let dx := vec_sub x (lin_point m) in
    lin_value m + dot (lin_gradient m) dx.
  (** linear_approximation.rs:57-63 *)
  Definition lin_intercept (m : LinearApproximation) : T :=
    fold_left (fun intercept i => intercept - nth i (lin_gradient m) zero * nth i (lin_point m) zero)
      (seq 0 (length (lin_point m))) (lin_value m).
  (** linear_approximation.rs:174-179; quadratic_approximation.rs:174-179 *)
  Definition gradient (d : Derivator T) (func : ScalarFnN) (point : list T) : Res (list T) DiffError :=
    fold_left (fun acc i => and_then acc (fun g => and_then (first_partial_derivative d func i point) (fun v => Ok (set_nth g i v))))
      (seq 0 (length point)) (Ok (repeat zero (length point))).
  (** linear_approximation.rs:167-187 *)
  Definition linear_approximate (d : Derivator T) (summation : SummationMethod) (func : ScalarFnN) (point : list T) :
      Res LinearApproximation DiffError :=
    let value := func T NT point in
    and_then (gradient d func point) (fun g => Ok (mkLin point value g summation)).

  (** quadratic_approximation.rs:11-18 *)
  Record QuadraticApproximation :=
    mkQuad { quad_point : list T; quad_value : T; quad_gradient : list T; quad_hessian : list (list T); quad_summation : SummationMethod }.
  (** quadratic_approximation.rs:40-44 *)
  Definition quad_predict (m : QuadraticApproximation) (x : list T) : T :=
    let dx := vec_sub x (quad_point m) in
    let n := length (quad_point m) in
    quad_value m + dot (quad_gradient m) dx + half * dot (mat_vec n n (quad_hessian m) dx) dx.
  (** quadratic_approximation.rs:167-203; the second loop is that of hessian.rs *)
  Definition quadratic_approximate (d : Derivator T) (summation : SummationMethod) (func : ScalarFnN) (point : list T) :
      Res QuadraticApproximation DiffError :=
    let value := func T NT point in
    and_then (gradient d func point) (fun g =>
    and_then (hessian d func point) (fun h => Ok (mkQuad point value g h summation))).

  (** linear_approximation.rs:19-31, quadratic_approximation.rs:21-33 *)
  Record Metrics := mkMetrics { mae : T; mse : T; rmse : T; r_squared : T; adjusted_r_squared : T }.
  (** summation.rs, Acc: the total of the terms added in order *)
  Definition acc_total (summation : SummationMethod) (terms : list T) : T :=
    match summation with Pairwise => pairwise_of terms | Kahan => kahan_of terms end.
  (** mod.rs:27-76 *)
  Definition compute_metrics (predict : list T -> T) (points : list (list T)) (original : list T -> T) (num_predictors : nat)
      (summation : SummationMethod) : Metrics :=
    let n := of_nat (length points) in
    let mean_y := acc_total summation (map original points) / n in
    let residual point := predict point - original point in
    let sum_abs := acc_total summation (map (fun p => abs (residual p)) points) in
    let ss_res := acc_total summation (map (fun p => residual p * residual p) points) in
    let ss_tot := acc_total summation (map (fun p => (original p - mean_y) * (original p - mean_y)) points) in
    let mae := sum_abs / n in
    let mse := ss_res / n in
    let rmse := sqrt mse in
    let r_squared := if ss_tot =? zero then nan else one - ss_res / ss_tot in
    let denominator := n - of_nat num_predictors - one in
    let adjusted := if denominator <=? zero then nan else one - (one - r_squared) * (n - one) / denominator in
    mkMetrics mae mse rmse r_squared adjusted.
  (** linear_approximation.rs:74-94 *)
  Definition lin_metrics (m : LinearApproximation) (points : list (list T)) (original : ScalarFnN) : Metrics :=
    compute_metrics (lin_predict m) points (original T NT) (length (lin_point m)) (lin_summation m).
  (** quadratic_approximation.rs:73-93 *)
  Definition quad_metrics (m : QuadraticApproximation) (points : list (list T)) (original : ScalarFnN) : Metrics :=
    let n := length (quad_point m) in
    compute_metrics (quad_predict m) points (original T NT) (n + Nat.div (n * (n + 1)) 2) (quad_summation m).
End Approximation.

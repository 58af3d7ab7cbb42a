(** What the control properties refer to. *)
From Coq Require Import List Reals.
From Verif Require Import Base.Scalar Model.Errors Model.Pid.
Import ListNotations.
Local Open Scope R_scope.

(** ** PID *)

(** Every controller a caller can hold: built by [new], then any number of the other calls in any
    order.  [lo] and [hi] are the limits most recently asked for (none at first); set points,
    measurements and handed-over commands are restricted to those [allowed]. *)
Inductive controller {T : Type} {NT : Num T} (allowed : T -> Prop) : T -> T -> Pid T -> Prop :=
| ctl_new kp ki kd dt c : pid_new kp ki kd dt = Ok c -> controller allowed neg_infinity infinity c
| ctl_limits lo hi c lo' hi' c' :
    controller allowed lo hi c -> pid_with_output_limits c lo' hi' = Ok c' -> controller allowed lo' hi' c'
| ctl_filter lo hi c smoothing c' :
    controller allowed lo hi c -> pid_with_derivative_filter c smoothing = Ok c' -> controller allowed lo hi c'
| ctl_gains lo hi c kp ki kd c' :
    controller allowed lo hi c -> pid_set_gains c kp ki kd = Ok c' -> controller allowed lo hi c'
| ctl_resume lo hi c output setpoint measurement c' :
    controller allowed lo hi c -> pid_resume_from c output setpoint measurement = Ok c' -> controller allowed lo hi c'
| ctl_update lo hi c setpoint measurement :
    controller allowed lo hi c -> allowed setpoint -> allowed measurement ->
    controller allowed lo hi (fst (pid_update c setpoint measurement))
| ctl_reset lo hi c : controller allowed lo hi c -> controller allowed lo hi (pid_reset c).

(** The command a controller would give now if it had no output limits. *)
Definition unlimited_command {T : Type} {NT : Num T} (c : Pid T) (setpoint measurement command : T) : Prop :=
  exists free, pid_with_output_limits c neg_infinity infinity = Ok free /\
               snd (pid_update free setpoint measurement) = command.

(** A first-order smoother over samples, newest first: the first sample as it is, then a fraction [s]
    of the way to each new one. *)
Fixpoint smoothed (s : R) (xs : list R) : R :=
  match xs with
  | [] => 0
  | x :: [] => x
  | x :: older => s * x + (1 - s) * smoothed s older
  end.
(** How fast the measurement falls at each sample, newest first: nothing to compare the first with. *)
Fixpoint fall_rates (dt : R) (ms : list R) : list R :=
  match ms with
  | [] => []
  | m :: older => (match older with [] => 0 | m0 :: _ => (m0 - m) / dt end) :: fall_rates dt older
  end.
(** The PID formula over a history of (set point, measurement) pairs, newest first: a multiple of the
    error now, a multiple of its sum over time, and a multiple of how fast the measurement falls. *)
Definition pid_formula (kp ki kd dt s : R) (history : list (R * R)) : R :=
  let errors := map (fun p => fst p - snd p) history in
  kp * hd 0 errors + ki * dt * fold_right Rplus 0 errors + kd * smoothed s (fall_rates dt (map snd history)).

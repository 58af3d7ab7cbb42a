(** Arcs at constant speed and turn rate. *)
From Coq Require Import ZArith List Bool Arith Reals Lra Lia.
From Coquelicot Require Import Coquelicot.
From Verif Require Import Base.Scalar Base.RNum Base.Lists Base.Series Base.Trig Model.Vector Model.Matrix Model.Quaternion Model.Lie Model.Drive Spec.Matrix Spec.Planar Spec.Drive
  Proofs.Angle Proofs.Rotation Proofs.Planar Proofs.Flow.
Import ListNotations.
Local Open Scope R_scope.
Local Notation cos := Rtrigo_def.cos.
Local Notation sin := Rtrigo_def.sin.

(** How far an arc of unit length turning by [w] gets ahead and to the side *)
Definition ahead (w : R) : R := if Req_EM_T w 0 then 1 else sin w / w.
Definition aside (w : R) : R := if Req_EM_T w 0 then 0 else (1 - cos w) / w.
Lemma exp_clear s w : clear_turn w -> se2_exp (s, 0, w) = SE2 (so2_from_angle w) (s * ahead w, s * aside w).
Proof.
  intros H. pose proof small_bound as S. rewrite se2_exp_R. cbv zeta. f_equal. unfold ahead, aside. destruct H as [H| ->].
  - fold small in H. assert (W : w <> 0) by (intros ->; rewrite Rabs_R0 in H; lra). rewrite (proj2 (Rltb_false _ _)) by exact H. destruct (Req_EM_T w 0); [contradiction|]. apply pair_eq; ring.
  - rewrite (proj2 (Rltb_true _ _)) by (rewrite Rabs_R0; lra). destruct (Req_EM_T 0 0); [|contradiction]. apply pair_eq; field.
Qed.
(** The exact end of a drive *)
Lemma rolled v w x y heading h : 0 <= h -> rolls v w x y heading h ->
  heading h = heading 0 + w * h /\
  x h = x 0 + v * h * (cos (heading 0) * ahead (w * h) - sin (heading 0) * aside (w * h)) /\
  y h = y 0 + v * h * (sin (heading 0) * ahead (w * h) + cos (heading 0) * aside (w * h)).
Proof.
  intros Hh R. set (g := heading 0).
  assert (G : forall t, 0 <= t <= h -> heading t = g + w * t).
  { intros t Ht. assert (E : (fun s => heading s - w * s) t = (fun s => heading s - w * s) 0).
    - apply (constant_on (fun s => heading s - w * s)); [lra|]. intros s Hs. destruct (R s ltac:(lra)) as (_ & _ & D). evar_last; [apply @is_derive_minus; [exact D|apply (is_derive_scal (fun s => s) s w), is_derive_id]|]. unfold minus, plus, opp, one; cbn. ring.
    - cbv beta in E. unfold g. lra. }
  split; [apply G; lra|]. unfold ahead, aside. destruct (Req_dec w 0) as [W|W].
  - replace (w * h) with 0 by (subst w; ring). destruct (Req_EM_T 0 0); [|contradiction].
    assert (E : (fun s => x s - v * s * cos g) h = (fun s => x s - v * s * cos g) 0 /\ (fun s => y s - v * s * sin g) h = (fun s => y s - v * s * sin g) 0).
    { split; [apply (constant_on (fun s => x s - v * s * cos g))|apply (constant_on (fun s => y s - v * s * sin g))]; auto; intros s Hs; destruct (R s Hs) as (DX & DY & _); rewrite (G s Hs), W, Rmult_0_l, Rplus_0_r in *.
      - evar_last; [apply @is_derive_minus; [exact DX|auto_derive; [trivial|reflexivity]]|]. unfold minus, plus, opp; cbn. ring.
      - evar_last; [apply @is_derive_minus; [exact DY|auto_derive; [trivial|reflexivity]]|]. unfold minus, plus, opp; cbn. ring. }
    cbv beta in E. lra.
  - assert (E : (fun s => x s - v / w * sin (g + w * s)) h = (fun s => x s - v / w * sin (g + w * s)) 0 /\ (fun s => y s + v / w * cos (g + w * s)) h = (fun s => y s + v / w * cos (g + w * s)) 0).
    { split; [apply (constant_on (fun s => x s - v / w * sin (g + w * s)))|apply (constant_on (fun s => y s + v / w * cos (g + w * s)))]; auto; intros s Hs; destruct (R s Hs) as (DX & DY & _); rewrite (G s Hs) in *.
      - evar_last; [apply @is_derive_minus; [exact DX|auto_derive; [trivial|reflexivity]]|]. unfold minus, plus, opp; cbn. field. exact W.
      - evar_last; [apply @is_derive_plus; [exact DY|auto_derive; [trivial|reflexivity]]|]. unfold minus, plus, opp; cbn. field. exact W. }
    cbv beta in E. rewrite Rmult_0_r, Rplus_0_r, sin_plus, cos_plus in E.
    destruct (Req_EM_T (w * h) 0) as [Z|Z].
    + assert (h = 0) by (destruct (Rmult_integral _ _ Z); [contradiction|auto]). subst h. lra.
    + assert (HH : h <> 0) by (intros ->; apply Z; ring). destruct E as [EX EY]. split.
      * replace (x h) with (x 0 + v / w * (sin g * cos (w * h) + cos g * sin (w * h)) - v / w * sin g) by lra. field. auto.
      * replace (y h) with (y 0 - v / w * (cos g * cos (w * h) - sin g * sin (w * h)) + v / w * cos g) by lra. field. auto.
Qed.
(** The drive exists. *)
Lemma roll v w x0 y0 g h : exists x y heading, rolls v w x y heading h /\ x 0 = x0 /\ y 0 = y0 /\ heading 0 = g.
Proof.
  destruct (Req_dec w 0) as [W|W].
  - exists (fun t => x0 + v * t * cos g), (fun t => y0 + v * t * sin g), (fun _ => g). split; [|repeat split; ring]. intros t _. subst w.
    split; [|split]; (auto_derive; [trivial|ring]).
  - exists (fun t => x0 + v / w * (sin (g + w * t) - sin g)), (fun t => y0 - v / w * (cos (g + w * t) - cos g)), (fun t => g + w * t).
    split; [|rewrite Rmult_0_r, Rplus_0_r; repeat split; ring]. intros t _.
    split; [|split]; (auto_derive; [trivial|field; exact W]).
Qed.
Lemma arc_add s t w u : s * u = t * w -> w * (w + u) <> 0 \/ w = 0 -> u * (w + u) <> 0 \/ u = 0 ->
  (s + t) * ahead (w + u) = s * ahead w + (cos w * (t * ahead u) - sin w * (t * aside u)) /\
  (s + t) * aside (w + u) = s * aside w + (sin w * (t * ahead u) + cos w * (t * aside u)).
Proof.
  intros R HW HU. unfold ahead, aside. destruct (Req_EM_T w 0) as [->|W].
  - rewrite Rplus_0_l, cos_0, sin_0. destruct (Req_EM_T u 0); [lra|]. assert (s = 0) by (apply (Rmult_eq_reg_r u); auto; lra). subst s. split; field; assumption.
  - destruct (Req_EM_T u 0) as [->|U].
    + assert (t = 0) by (apply (Rmult_eq_reg_r w); auto; lra). subst t. rewrite !Rplus_0_r. destruct (Req_EM_T w 0); [contradiction|]. split; ring.
    + assert (WU : w + u <> 0) by (intros Z; destruct HW as [HW|]; [apply HW; rewrite Z; ring|auto]). destruct (Req_EM_T (w + u) 0); [contradiction|].
      rewrite sin_plus, cos_plus. assert (E : s = t * w / u) by (field_simplify_eq; auto; lra). subst s. split; field; auto.
Qed.

(** The two Runge-Kutta methods of the crate as tableaux: their stages, and their order conditions. *)
From Coq Require Import Reals List Arith Lia Lra QArith Qreals.
From Coquelicot Require Import Coquelicot.
From Verif Require Import Base.Scalar Base.RNum Base.Series Spec.Ode Proofs.Order Proofs.Vector Proofs.Ode Model.Vector Model.Ode.
Import ListNotations.
Local Open Scope R_scope.
Local Notation length := List.length.

Definition A4 : list (list Q) := [[]; [1#2]; [0; 1#2]; [0; 0; 1]]%Q.
Definition B4 : list Q := [1#6; 1#3; 1#3; 1#6]%Q.
Lemma order4 : check_order A4 B4 4 exact_weight_q = true.
Proof. vm_compute. reflexivity. Qed.
Definition A5 : list (list Q) :=
  [[]; [1#5]; [3#40; 9#40]; [44#45; (-56)#15; 32#9]; [19372#6561; (-25360)#2187; 64448#6561; (-212)#729];
   [9017#3168; (-355)#33; 46732#5247; 49#176; (-5103)#18656]; [35#384; 0; 500#1113; 125#192; (-2187)#6784; 11#84]]%Q.
Definition B5 : list Q := [35#384; 0; 500#1113; 125#192; (-2187)#6784; 11#84; 0]%Q.
Definition E5 : list Q := [71#57600; 0; (-71)#16695; 71#1920; (-17253)#339200; 22#525; (-1)#40]%Q.
Lemma order5 : check_order A5 B5 5 exact_weight_q = true.
Proof. vm_compute. reflexivity. Qed.
Lemma estimate4 : check_order A5 E5 4 (fun _ => 0%Q) = true.
Proof. vm_compute. reflexivity. Qed.

Section Stages.
Variables (n : nat) (f : R -> list R -> list R).
Hypothesis Size : same_size n f.
Lemma scale_len (u : list R) s : length (vec_scale u s) = length u.
Proof. unfold vec_scale. apply map_length. Qed.
Ltac lens := rewrite ?scale_len; repeat (rewrite add_length; rewrite ?scale_len); try apply Size; rewrite ?scale_len; auto.
Ltac len := solve [repeat first [assumption | apply Size | rewrite scale_len | rewrite add_length | reflexivity | (etransitivity; [|symmetry])]].

(** the stages of the classical method *)
Definition stage4 (t : R) (z : list R) (h : R) (s : nat) : list R :=
  let k1 := f t z in let k2 := f (t + / 2 * h) (vec_add z (vec_scale k1 (/ 2 * h))) in let k3 := f (t + / 2 * h) (vec_add z (vec_scale k2 (/ 2 * h))) in
  nth s [k1; k2; k3; f (t + h) (vec_add z (vec_scale k3 h))] [].
Lemma added_length (u v : list R) : length u = n -> length v = n -> length (vec_add u v) = n.
Proof. intros U V. rewrite add_length; congruence. Qed.
Lemma scaled_length (u : list R) s : length u = n -> length (vec_scale u s) = n.
Proof. intros U. rewrite scale_len. exact U. Qed.
Lemma nth_added (u v : list R) i : length u = n -> length v = n -> nth i (vec_add u v) 0 = nth i u 0 + nth i v 0.
Proof. intros U V. apply nth_add. congruence. Qed.
Ltac size := repeat first [assumption | apply Size | apply added_length | apply scaled_length].
Ltac expand := repeat first [rewrite nth_added by size | rewrite nth_scale].
Lemma stage4_eq t z h s i : length z = n -> (s < 4)%nat -> (i < n)%nat ->
  nth i (stage4 t z h s) 0 = nth i (f (t + h * bsum s (Rentry A4 s)) (shifted n z (fun j => h * bsum s (fun r => Rentry A4 s r * nth j (stage4 t z h r) 0)))) 0.
Proof.
  intros Lz Hs Hi. destruct s as [|[|[|[|s]]]]; [| | | |lia]; unfold stage4 at 1; cbn [nth]; f_equal; f_equal; cbn [bsum]; try (unfold Rentry, entry, A4, Q2R; cbn [nth Qnum Qden]; lra).
  all: apply shifted_eq; [size|]. all: intros j Hj; expand; unfold stage4; cbn [nth bsum]; unfold Rentry, entry, A4, Q2R; cbn [nth Qnum Qden]; lra.
Qed.
Lemma rk4_step_eq t z h i : length z = n -> nth i (rk4_step f t z h) 0 = nth i z 0 + h * bsum 4 (fun s => weight_of B4 s * nth i (stage4 t z h s) 0).
Proof.
  intros Lz. unfold rk4_step. rnum. expand. unfold stage4. cbn [nth bsum]. unfold weight_of, B4, Q2R. cbn [nth Qnum Qden]. field.
Qed.
Lemma rk4_step_length t z h : length z = n -> length (rk4_step f t z h) = n.
Proof. intros Lz. unfold rk4_step. rnum. size. Qed.

(** the stages of Dormand and Prince's *)
Definition stage5 (t : R) (z : list R) (h : R) (s : nat) : list R :=
  let k1 := f t z in
  let k2 := f (t + 1 / 5 * h) (vec_add z (vec_scale k1 (1 / 5 * h))) in
  let k3 := f (t + 3 / 10 * h) (vec_add (vec_add z (vec_scale k1 (3 / 40 * h))) (vec_scale k2 (9 / 40 * h))) in
  let k4 := f (t + 4 / 5 * h) (vec_add (vec_add (vec_add z (vec_scale k1 (44 / 45 * h))) (vec_scale k2 (-56 / 15 * h))) (vec_scale k3 (32 / 9 * h))) in
  let k5 := f (t + 8 / 9 * h) (vec_add (vec_add (vec_add (vec_add z (vec_scale k1 (19372 / 6561 * h))) (vec_scale k2 (-25360 / 2187 * h))) (vec_scale k3 (64448 / 6561 * h))) (vec_scale k4 (-212 / 729 * h))) in
  let k6 := f (t + h) (vec_add (vec_add (vec_add (vec_add (vec_add z (vec_scale k1 (9017 / 3168 * h))) (vec_scale k2 (-355 / 33 * h))) (vec_scale k3 (46732 / 5247 * h))) (vec_scale k4 (49 / 176 * h))) (vec_scale k5 (-5103 / 18656 * h))) in
  nth s [k1; k2; k3; k4; k5; k6; f (t + h) (fst (fst (dopri_step f t z h (f t z))))] [].
Lemma dopri_state t z h i : length z = n -> nth i (fst (fst (dopri_step f t z h (f t z)))) 0 = nth i z 0 + h * bsum 7 (fun s => weight_of B5 s * nth i (stage5 t z h s) 0).
Proof.
  intros Lz. unfold stage5. cbn [nth bsum]. unfold weight_of, B5. cbn [nth]. unfold dopri_step. cbn [fst snd]. unfold STAGE_A21, STAGE_A31, STAGE_A32, STAGE_A41, STAGE_A42, STAGE_A43, STAGE_A51, STAGE_A52, STAGE_A53, STAGE_A54, STAGE_A61, STAGE_A62, STAGE_A63, STAGE_A64, STAGE_A65, NODE2, NODE3, NODE4, NODE5, WEIGHT1, WEIGHT3, WEIGHT4, WEIGHT5, WEIGHT6. rnum.
  set (k2 := f _ (vec_add z (vec_scale (f t z) (1 / 5 * h)))). set (k3 := f (t + 3 / 10 * h) _). set (k4 := f (t + 4 / 5 * h) _). set (k5 := f (t + 8 / 9 * h) _). set (k6 := f (t + h) _).
  assert (length k2 = n) by (unfold k2; size). assert (length k3 = n) by (unfold k3; size). assert (length k4 = n) by (unfold k4; size). assert (length k5 = n) by (unfold k5; size). assert (length k6 = n) by (unfold k6; size). assert (length (f t z) = n) by size.
  expand. unfold Q2R. cbn [Qnum Qden]. lra.
Qed.
Lemma dopri_length t z h : length z = n -> length (fst (fst (dopri_step f t z h (f t z)))) = n.
Proof. intros Lz. unfold dopri_step. cbn [fst snd]. rnum. size. Qed.
Lemma stage5_eq t z h s i : length z = n -> (s < 7)%nat -> (i < n)%nat ->
  nth i (stage5 t z h s) 0 = nth i (f (t + h * bsum s (Rentry A5 s)) (shifted n z (fun j => h * bsum s (fun r => Rentry A5 s r * nth j (stage5 t z h r) 0)))) 0.
Proof.
  intros Lz Hs Hi. destruct (Nat.eq_dec s 6) as [->|N6].
  - unfold stage5 at 1. cbn [nth]. f_equal. f_equal; [cbn [bsum]; unfold Rentry, entry, A5, Q2R; cbn [nth Qnum Qden]; lra|]. apply shifted_eq; [apply dopri_length; auto|]. intros j Hj. rewrite dopri_state by auto. do 2 f_equal.
    cbn [bsum]. unfold Rentry, entry, A5, weight_of, B5. cbn [nth]. rewrite (RMicromega.Q2R_0). ring.
  - assert (L1 : length (f t z) = n) by size.
    destruct s as [|[|[|[|[|[|s]]]]]]; [| | | | | |lia]; unfold stage5 at 1; cbn [nth].
    all: try set (k2 := f (t + 1 / 5 * h) _) in *; try set (k3 := f (t + 3 / 10 * h) _) in *; try set (k4 := f (t + 4 / 5 * h) _) in *; try set (k5 := f (t + 8 / 9 * h) _) in *.
    all: try (assert (length k2 = n) by (unfold k2; size)); try (assert (length k3 = n) by (unfold k3; size)); try (assert (length k4 = n) by (unfold k4; size)); try (assert (length k5 = n) by (unfold k5; size)).
    all: f_equal; try unfold k2 at 1; try unfold k3 at 1; try unfold k4 at 1; try unfold k5 at 1; f_equal; try (cbn [bsum]; unfold Rentry, entry, A5, Q2R; cbn [nth Qnum Qden]; lra).
    all: apply shifted_eq; [size|]; intros j Hj; expand; unfold stage5; cbn [nth bsum]; unfold Rentry, entry, A5, Q2R; cbn [nth Qnum Qden]; try fold k2; try fold k3; try fold k4; try fold k5; try lra.
Qed.
Lemma dopri_error t z h i : length z = n -> nth i (snd (fst (dopri_step f t z h (f t z)))) 0 = h * bsum 7 (fun s => weight_of E5 s * nth i (stage5 t z h s) 0).
Proof.
  intros Lz. assert (Ls : length (fst (fst (dopri_step f t z h (f t z)))) = n) by (apply dopri_length; auto). unfold stage5. cbn [nth bsum]. unfold weight_of, E5. cbn [nth]. set (y5 := fst (fst _)) in *.
  assert (E7 : exists k7, k7 = f (t + h) y5 /\ length k7 = n) by (eexists; split; [reflexivity|size]). destruct E7 as (k7 & K7 & L7). rewrite <- K7. unfold y5, dopri_step in K7. cbn [fst snd] in K7. unfold dopri_step. cbn [fst snd].
  unfold STAGE_A21, STAGE_A31, STAGE_A32, STAGE_A41, STAGE_A42, STAGE_A43, STAGE_A51, STAGE_A52, STAGE_A53, STAGE_A54, STAGE_A61, STAGE_A62, STAGE_A63, STAGE_A64, STAGE_A65, NODE2, NODE3, NODE4, NODE5, ERROR1, ERROR3, ERROR4, ERROR5, ERROR6, ERROR7, WEIGHT1, WEIGHT3, WEIGHT4, WEIGHT5, WEIGHT6 in *. rnum. rewrite <- K7. clear K7 Ls y5.
  set (k2 := f _ (vec_add z (vec_scale (f t z) (1 / 5 * h)))). set (k3 := f (t + 3 / 10 * h) _). set (k4 := f (t + 4 / 5 * h) _). set (k5 := f (t + 8 / 9 * h) _). set (k6 := f (t + h) _).
  assert (length k2 = n) by (unfold k2; size). assert (length k3 = n) by (unfold k3; size). assert (length k4 = n) by (unfold k4; size). assert (length k5 = n) by (unfold k5; size). assert (length k6 = n) by (unfold k6; size). assert (length (f t z) = n) by size.
  expand. unfold Q2R. cbn [Qnum Qden]. lra.
Qed.
End Stages.

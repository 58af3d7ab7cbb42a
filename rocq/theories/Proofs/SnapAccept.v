(** When the minimum snap planner is sure to answer. *)
From Coq Require Import ZArith List Bool Arith Reals Lra Lia.
From Verif Require Import Base.Scalar Base.RNum Base.Lists Base.Series Model.Errors Model.Vector Model.Matrix Model.Lu Model.Polynomial Model.Piecewise Model.MinimumSnap
  Spec.Matrix Proofs.Matrix Proofs.SnapPiece Proofs.SnapSystem Props.Lu Props.LuAccept.
Import ListNotations.
Local Open Scope R_scope.

(** Six times the inverse of the endpoint mapping of a unit span *)
Definition table : list (list Z) :=
  [[6; 0; 0; 0; 0; 0; 0; 0]; [0; 6; 0; 0; 0; 0; 0; 0]; [0; 0; 3; 0; 0; 0; 0; 0]; [0; 0; 0; 1; 0; 0; 0; 0];
   [-210; -120; -30; -4; 210; -90; 15; -1]; [504; 270; 60; 6; -504; 234; -42; 3]; [-420; -216; -45; -4; 420; -204; 39; -3]; [120; 60; 12; 1; -120; 60; -12; 1]]%Z.
Definition unmapped (h : R) (i j : nat) : R := IZR (nth j (nth i table []) 0%Z) / 6 * h ^ (j mod 4).
Lemma unmapped_right h : h <> 0 -> equal 8 8 (product 8 (mget (endpoint_mapping h)) (unmapped h)) unit_matrix.
Proof.
  intros H i j Hi Hj. unfold product.
  rewrite (bsum_ext 8 _ (fun k => (if Nat.ltb i 4 then (if Nat.eqb i k then falling i i / h ^ i else 0) else falling k (i - 4) / h ^ (i - 4)) * unmapped h k j)) by (intros k Hk; rewrite mapping_entry by auto; reflexivity).
  do 8 (destruct i as [|i]; [do 8 (destruct j as [|j]; [unfold bsum, falling, unmapped, unit_matrix; cbn -[INR IZR]; cbn [INR]; field; auto|]); lia|]). lia.
Qed.
Lemma unmapped_left h : h <> 0 -> equal 8 8 (product 8 (unmapped h) (mget (endpoint_mapping h))) unit_matrix.
Proof.
  intros H i j Hi Hj. unfold product.
  rewrite (bsum_ext 8 _ (fun k => unmapped h i k * (if Nat.ltb k 4 then (if Nat.eqb k j then falling k k / h ^ k else 0) else falling j (k - 4) / h ^ (k - 4)))) by (intros k Hk; rewrite mapping_entry by auto; reflexivity).
  do 8 (destruct i as [|i]; [do 8 (destruct j as [|j]; [unfold bsum, falling, unmapped, unit_matrix; cbn -[INR IZR]; cbn [INR]; field; auto|]); lia|]). lia.
Qed.
Lemma pow_below x g k : 0 <= x <= g -> 1 <= g -> (k <= 3)%nat -> 0 <= x ^ k <= g ^ 3.
Proof.
  intros [H0 H] G K. split; [apply pow_le, H0|]. apply (Rle_trans _ (g ^ k)); [apply pow_incr; auto|apply Rle_pow; auto].
Qed.
Lemma falling_below j r : (j < 8)%nat -> 0 <= falling j r <= 210.
Proof. intros Hj. unfold falling. do 8 (destruct j as [|j]; [destruct r as [|[|[|r]]]; cbn [INR Nat.sub]; lra|]). lia. Qed.
Lemma mapping_bound h i j : 0 < h -> (i < 8)%nat -> (j < 8)%nat -> Rabs (mget (endpoint_mapping h) i j) <= 210 * Rmax 1 (/ h) ^ 3.
Proof.
  intros H Hi Hj. rewrite mapping_entry by auto. set (l := Rmax 1 (/ h)). assert (L1 : 1 <= l) by apply Rmax_l. assert (L2 : / h <= l) by apply Rmax_r. assert (Hp : 0 < / h) by (apply Rinv_0_lt_compat, H).
  assert (G : forall a r, (a < 8)%nat -> (r <= 3)%nat -> Rabs (falling a r / h ^ r) <= 210 * l ^ 3).
  { intros a r Ha Hr. unfold Rdiv. rewrite <- pow_inv. destruct (falling_below a r Ha). destruct (pow_below (/ h) l r ltac:(lra) L1 Hr). rewrite Rabs_pos_eq by (apply Rmult_le_pos; lra). apply Rmult_le_compat; lra. }
  assert (Z : 0 <= 210 * l ^ 3) by (assert (0 <= l ^ 3) by (apply pow_le; lra); lra).
  destruct (Nat.ltb_spec i 4); [destruct (Nat.eqb i j); [apply G; lia|rewrite Rabs_R0; exact Z]|apply G; lia].
Qed.
Lemma unmapped_bound h i : 0 < h -> (i < 8)%nat -> bsum 8 (fun j => Rabs (unmapped h i j)) <= 271 * Rmax 1 h ^ 3.
Proof.
  intros H Hi. set (g := Rmax 1 h). assert (G1 : 1 <= g) by apply Rmax_l. assert (G2 : h <= g) by apply Rmax_r. assert (G3 : 1 <= g ^ 3) by (apply pow_R1_Rle, G1).
  apply (Rle_trans _ (bsum 8 (fun j => g ^ 3 * (IZR (Z.abs (nth j (nth i table []) 0%Z)) / 6)))).
  - apply bsum_le. intros j Hj. unfold unmapped. destruct (pow_below h g (j mod 4) ltac:(lra) G1) as [P1 P2]; [pose proof (Nat.mod_upper_bound j 4); lia|].
    rewrite Rabs_mult, (Rabs_pos_eq (h ^ _)) by exact P1. unfold Rdiv. rewrite Rabs_mult, (Rabs_pos_eq (/ 6)) by lra. rewrite abs_IZR. pose proof (Rabs_pos (IZR (nth j (nth i table []) 0%Z))). rewrite (Rmult_comm (g ^ 3)). apply Rmult_le_compat_l; lra.
  - rewrite bsum_scal. rewrite (Rmult_comm 271). apply Rmult_le_compat_l; [lra|]. do 8 (destruct i as [|i]; [unfold bsum; cbn; lra|]). lia.
Qed.
Lemma spread h : / 1000 <= h <= 1000 -> 0 < h /\ Rmax 1 h ^ 3 * Rmax 1 (/ h) ^ 3 <= 1000000000 /\ Rmax 1 (/ h) ^ 3 <= 1000000000.
Proof.
  intros [H1 H2]. assert (H : 0 < h) by lra. assert (Hp : 0 < / h) by (apply Rinv_0_lt_compat, H). assert (Hi : / h <= 1000) by (rewrite <- (Rinv_involutive 1000) by lra; apply Rinv_le_contravar; lra).
  split; [exact H|]. rewrite <- Rpow_mult_distr. replace 1000000000 with (1000 ^ 3) by ring.
  assert (B : 0 <= Rmax 1 h * Rmax 1 (/ h) <= 1000).
  { unfold Rmax. assert (h * / h = 1) by (apply Rinv_r; lra). destruct (Rle_dec 1 h), (Rle_dec 1 (/ h)); split; try nra. }
  split; apply pow_incr; [exact B|]. unfold Rmax. destruct (Rle_dec 1 (/ h)); lra.
Qed.
Lemma largest_wide x : x <= 1000000000000 -> x <= IZR (2 ^ 53 - 1) * IZR (2 ^ 971).
Proof. intros H. rewrite <- mult_IZR. apply (Rle_trans _ _ _ H). apply IZR_le. vm_compute. discriminate. Qed.
Lemma mapping_accepted h : / 1000 <= h <= 1000 -> exists inverse, endpoint_mapping_inverse h = Ok inverse /\ forall i j, (i < 8)%nat -> (j < 8)%nat -> mget inverse i j = unmapped h i j.
Proof.
  intros Hh. destruct (spread h Hh) as (H & B & B').
  assert (Q : exists inverse, endpoint_mapping_inverse h = Ok inverse).
  { destruct (C75_accepts 8 (endpoint_mapping h) (unmapped h) (271 * Rmax 1 h ^ 3) (mapping_shape h) (unmapped_right h (Rgt_not_eq _ _ H)) (unmapped_left h (Rgt_not_eq _ _ H)) (fun i Hi => unmapped_bound h i H Hi)) as [f F].
    - intros i j Hi Hj. pose proof (mapping_bound h i j H Hi Hj) as M. split; [apply largest_wide; lra|].
      assert (P : 0 <= 271 * Rmax 1 h ^ 3) by (assert (0 <= Rmax 1 h ^ 3) by (apply pow_le; pose proof (Rmax_l 1 h); lra); lra).
      assert (E : 0 < / IZR (2 ^ 52)) by (apply Rinv_0_lt_compat, IZR_lt; reflexivity).
      apply (Rle_lt_trans _ (/ IZR (2 ^ 52) * (271 * Rmax 1 h ^ 3 * (210 * Rmax 1 (/ h) ^ 3)))).
      + rewrite (Rmult_comm (271 * Rmax 1 h ^ 3) (/ IZR (2 ^ 52))), Rmult_assoc. apply Rmult_le_compat_l; [lra|]. apply Rmult_le_compat_l; lra.
      + apply (Rmult_lt_reg_l (IZR (2 ^ 52))); [apply IZR_lt; reflexivity|]. rewrite <- Rmult_assoc, Rinv_r by (apply Rgt_not_eq, IZR_lt; reflexivity). change (2 ^ 52)%Z with 4503599627370496%Z. lra.
    - unfold endpoint_mapping_inverse, mat_inverse, inverse_lu. rewrite F. eexists. reflexivity. }
  destruct Q as [inverse Q]. exists inverse. split; [exact Q|]. intros i j Hi Hj. destruct (C78_inverse 8 _ _ (mapping_shape h) Q) as (_ & _ & L).
  rewrite <- (product_unit_r 8 (mget inverse) i j Hj). rewrite <- (product_unit_l 8 (unmapped h) i j Hi).
  transitivity (product 8 (mget inverse) (product 8 (mget (endpoint_mapping h)) (unmapped h)) i j).
  - apply product_ext; [reflexivity|]. intros k Hk. symmetry. apply unmapped_right; auto. apply Rgt_not_eq, H.
  - rewrite <- product_assoc. apply product_ext; [|reflexivity]. intros k Hk. apply L; auto.
Qed.

(** The minimum snap planner over the reals. *)
From Coq Require Import ZArith List Bool Arith Reals Lra Lia.
From Coquelicot Require Import Coquelicot.
From Verif Require Import Base.Scalar Base.RNum Base.Lists Base.Series Model.Errors Model.Vector Model.Matrix Model.Lu Model.Polynomial Model.Piecewise Model.MinimumSnap
  Spec.Matrix Spec.Polynomial Spec.Piecewise Spec.MinimumSnap Proofs.Matrix Proofs.Algebra Proofs.DiffAlg Props.Lu.
Import ListNotations.
Local Open Scope R_scope.

(** ** One piece *)
Definition lower (c : nat -> R) (j : nat) : R := INR (S j) * c (S j).
Definition lowered (r : nat) (c : nat -> R) : nat -> R := Nat.iter r lower c.
(** The [r]-th derivative of the piece with coefficients [c] that starts at [a] and lasts [h] *)
Definition piece_slope (c : nat -> R) (a h : R) (r : nat) (t : R) : R := bsum 8 (fun j => lowered r c j * ((t - a) / h) ^ j) / h ^ r.
Definition short (c : nat -> R) : Prop := forall j, (8 <= j)%nat -> c j = 0.
Lemma lower_short c : short c -> short (lower c).
Proof. intros H j Hj. unfold lower. rewrite H by lia. ring. Qed.
Lemma lowered_short r c : short c -> short (lowered r c).
Proof. intros H. induction r as [|r IH]; [exact H|]. apply lower_short, IH. Qed.
Lemma lowered_vanish r c : short c -> forall j, (8 <= j + r)%nat -> lowered r c j = 0.
Proof. intros H. induction r as [|r IH]; intros j Hj; [apply H; lia|]. cbn [lowered Nat.iter nat_rect]. unfold lower. unfold lowered, Nat.iter in IH. rewrite IH by lia. ring. Qed.
Lemma slope_derive c a h r t : short c -> h <> 0 -> is_derive (piece_slope c a h r) t (piece_slope c a h (S r) t).
Proof.
  intros Sh H. unfold piece_slope. set (d := lowered r c). change (lowered (S r) c) with (lower d). assert (Z : d 8%nat = 0) by (apply (lowered_short r c Sh); lia).
  unfold bsum, lower. cbn [pow]. auto_derive; [exact Logic.I|]. rewrite Z. cbn [INR]. field. split; [exact H|apply pow_nonzero, H].
Qed.
Lemma slope_value (p : list R) a h t : List.length p = 8%nat -> piece_slope (vget p) a h 0 t = value_at p ((t - a) / h).
Proof. intros L. unfold piece_slope, value_at. rewrite L. cbn [pow]. rewrite Rdiv_1. reflexivity. Qed.
Lemma vget_short (p : list R) : List.length p = 8%nat -> short (vget p).
Proof. intros L j Hj. unfold vget. apply nth_overflow. lia. Qed.

(** ** The endpoint mapping *)
Definition edge (c : nat -> R) (h : R) (i : nat) : R := piece_slope c 0 h (i mod 4) (if Nat.ltb i 4 then 0 else h).
Lemma mapping_shape h : shape 8 8 (endpoint_mapping h : mat R).
Proof. split; [reflexivity|]. intros i Hi. do 8 (destruct i as [|i]; [reflexivity|]). lia. Qed.
Definition falling (j r : nat) : R := match r with O => 1 | 1%nat => INR j | 2%nat => INR j * INR (j - 1) | _ => INR j * INR (j - 1) * INR (j - 2) end.
Lemma mapping_entry h i j : (i < 8)%nat -> (j < 8)%nat ->
  mget (endpoint_mapping h) i j = if Nat.ltb i 4 then (if Nat.eqb i j then falling i i / h ^ i else 0) else falling j (i - 4) / h ^ (i - 4).
Proof.
  intros Hi Hj. unfold endpoint_mapping, ways_down, range.
  do 8 (destruct i as [|i]; [do 8 (destruct j as [|j]; [unfold of_nat, mget, vget, falling; cbn; rnum; unfold Rdiv; rewrite ?Rmult_1_l, ?Rmult_1_r, ?Rinv_1; try reflexivity; try lra; try (f_equal; try lra; f_equal; ring)|]); lia|]). lia.
Qed.
Lemma mapping_rows c h i : short c -> (i < 8)%nat -> h <> 0 -> times 8 (mget (endpoint_mapping h)) c i = edge c h i.
Proof.
  intros Sh Hi H. unfold times. rewrite (bsum_ext 8 _ (fun k => (if Nat.ltb i 4 then (if Nat.eqb i k then falling i i / h ^ i else 0) else falling k (i - 4) / h ^ (i - 4)) * c k)) by (intros k Hk; rewrite mapping_entry by auto; reflexivity).
  unfold edge, piece_slope. do 8 (destruct i as [|i]; [unfold bsum, falling, lowered, lower; cbn -[INR]; rewrite ?(Sh 8%nat), ?(Sh 9%nat), ?(Sh 10%nat), ?(Sh 11%nat), ?(Sh 12%nat), ?(Sh 13%nat), ?(Sh 14%nat) by lia; cbn [INR]; field; auto|]). lia.
Qed.
Definition after_four (i : nat) : R := INR i * INR (i - 1) * INR (i - 2) * INR (i - 3).
Lemma cost_shape : shape 8 8 (snap_cost : mat R).
Proof. split; [reflexivity|]. intros i Hi. do 8 (destruct i as [|i]; [reflexivity|]). lia. Qed.
Lemma cost_entry i j : (i < 8)%nat -> (j < 8)%nat -> mget (snap_cost : mat R) i j = if (Nat.leb 4 i && Nat.leb 4 j)%bool then after_four i * after_four j / INR (i + j - 7) else 0.
Proof.
  intros Hi Hj. unfold snap_cost, ways_after_four_derivatives, range.
  do 8 (destruct i as [|i]; [do 8 (destruct j as [|j]; [unfold of_nat, mget, vget, after_four; cbn; rnum; try reflexivity; lra|]); lia|]). lia.
Qed.
(** What the square of the snap gains per unit of each endpoint value, halved *)
Definition pull (c : nat -> R) (h : R) (i : nat) : R :=
  if Nat.ltb i 4 then - ((-1) ^ (3 - i) * piece_slope c 0 h (7 - i) 0) else (-1) ^ (7 - i) * piece_slope c 0 h (11 - i) h.
Lemma pull_balance c h j : short c -> (j < 8)%nat -> h <> 0 ->
  times 8 (transposed (mget (endpoint_mapping h))) (pull c h) j = / h ^ 7 * times 8 (mget (snap_cost : mat R)) c j.
Proof.
  intros Sh Hj H. unfold times, transposed.
  rewrite (bsum_ext 8 _ (fun i => (if Nat.ltb i 4 then (if Nat.eqb i j then falling i i / h ^ i else 0) else falling j (i - 4) / h ^ (i - 4)) * pull c h i)) by (intros k Hk; rewrite mapping_entry by auto; reflexivity).
  rewrite (bsum_ext 8 (fun k => mget snap_cost j k * c k) (fun k => (if (Nat.leb 4 j && Nat.leb 4 k)%bool then after_four j * after_four k / INR (j + k - 7) else 0) * c k)) by (intros k Hk; rewrite cost_entry by auto; reflexivity).
  unfold pull, piece_slope, after_four.
  do 8 (destruct j as [|j]; [unfold bsum, falling, lowered, lower; cbn -[INR]; rewrite ?(Sh 8%nat), ?(Sh 9%nat), ?(Sh 10%nat), ?(Sh 11%nat), ?(Sh 12%nat), ?(Sh 13%nat), ?(Sh 14%nat) by lia; cbn [INR]; field; auto|]). lia.
Qed.
Lemma powi_minus_seven (x : R) : powi x (-7) = / x ^ 7.
Proof. unfold powi. rewrite powi_loop_R. rnum. change (Pos.to_nat 7) with 7%nat. unfold Rdiv. rewrite !Rmult_1_l. reflexivity. Qed.
Section Inverse.
  Variables (inverse : mat R) (h : R).
  Hypothesis Hh : h <> 0.
  Hypothesis Hinv : endpoint_mapping_inverse h = Ok inverse.
  Let S8 := mapping_shape h.
Lemma inverse_left x i : (i < 8)%nat -> times 8 (mget inverse) (times 8 (mget (endpoint_mapping h)) x) i = x i.
Proof.
    intros Hi. destruct (C78_inverse 8 _ _ S8 Hinv) as (_ & _ & L). rewrite <- times_product.
    rewrite (times_ext 8 _ unit_matrix x x) by (try (intros k Hk; apply L; auto); intros k _; reflexivity). apply times_unit, Hi.
Qed.
Lemma inverse_right x i : (i < 8)%nat -> times 8 (mget (endpoint_mapping h)) (times 8 (mget inverse) x) i = x i.
Proof.
    intros Hi. destruct (C78_inverse 8 _ _ S8 Hinv) as (_ & L & _). rewrite <- times_product.
    rewrite (times_ext 8 _ unit_matrix x x) by (try (intros k Hk; apply L; auto); intros k _; reflexivity). apply times_unit, Hi.
Qed.
Lemma inverse_transposed x i : (i < 8)%nat -> times 8 (transposed (mget inverse)) (times 8 (transposed (mget (endpoint_mapping h))) x) i = x i.
Proof.
    intros Hi. destruct (C78_inverse 8 _ _ S8 Hinv) as (_ & L & _). rewrite <- times_product.
    rewrite (times_ext 8 _ unit_matrix x x).
    - apply times_unit, Hi.
    - intros k Hk. rewrite product_transposed. unfold transposed. rewrite L by auto. unfold unit_matrix. rewrite Nat.eqb_sym. reflexivity.
    - intros k _. reflexivity.
Qed.
Lemma terms_entry i j : (i < 8)%nat -> (j < 8)%nat ->
    mget (in_endpoint_terms inverse h) i j = product 8 (product 8 (transposed (mget inverse)) (fun r c => / h ^ 7 * mget (snap_cost : mat R) r c)) (mget inverse) i j.
Proof.
    intros Hi Hj. unfold in_endpoint_terms. rewrite mget_mul by auto. apply product_ext; [|reflexivity]. intros k Hk. rewrite mget_mul by auto.
    apply product_ext; intros l Hl; [rewrite mget_transpose by auto; reflexivity|]. unfold mat_scale. rewrite mget_mat_fn by auto. rewrite powi_minus_seven. rnum. ring.
Qed.
Lemma terms_pull c i : short c -> (i < 8)%nat -> times 8 (mget (in_endpoint_terms inverse h)) (edge c h) i = pull c h i.
Proof.
    intros Sh Hi. rewrite (times_ext 8 _ _ _ (times 8 (mget (endpoint_mapping h)) c) i (fun k Hk => terms_entry i k Hi Hk)).
    2: { intros k Hk. symmetry. apply mapping_rows; auto. }
    rewrite times_product, times_product. rewrite <- (inverse_transposed (pull c h) i Hi). apply times_ext; [reflexivity|]. intros k Hk.
    rewrite pull_balance by auto. unfold times. rewrite <- bsum_scal. apply bsum_ext. intros l Hl.
    change (bsum 8 (fun k0 => mget inverse l k0 * bsum 8 (fun k1 => mget (endpoint_mapping h) k0 k1 * c k1))) with (times 8 (mget inverse) (times 8 (mget (endpoint_mapping h)) c) l).
    rewrite inverse_left by auto. ring.
Qed.
Lemma terms_symmetric i j : (i < 8)%nat -> (j < 8)%nat -> mget (in_endpoint_terms inverse h) i j = mget (in_endpoint_terms inverse h) j i.
Proof.
    intros Hi Hj. rewrite !terms_entry by auto. rewrite product_assoc. unfold product, transposed.
    apply bsum_ext. intros k Hk. rewrite Rmult_comm. f_equal. apply bsum_ext. intros l Hl. rewrite (cost_entry k l), (cost_entry l k) by auto.
    rewrite (andb_comm (Nat.leb 4 l)), (Nat.add_comm l k). destruct (_ && _)%bool; unfold Rdiv; ring.
Qed.
End Inverse.
Lemma septic_spec start end_ h p : List.length start = 4%nat -> List.length end_ = 4%nat -> septic_from_endpoint_derivatives start end_ h = Ok p ->
  0 < h /\ List.length p = 8%nat /\ (exists inverse, endpoint_mapping_inverse h = Ok inverse) /\
  forall r, (r < 4)%nat -> piece_slope (vget p) 0 h r 0 = nth r start 0 /\ piece_slope (vget p) 0 h r h = nth r end_ 0.
Proof.
  intros L1 L2 E. unfold septic_from_endpoint_derivatives in E. destruct (_ || _)%bool; [discriminate|]. destruct (leb h zero) eqn:Hh; [discriminate|].
  apply Rleb_false in Hh. cbn in Hh. destruct (endpoint_mapping_inverse h) as [inverse| |] eqn:I; try discriminate. injection E as <-.
  assert (L : List.length (mat_vec 8 8 inverse (start ++ end_)) = 8%nat) by (apply from_fn_length).
  split; [exact Hh|]. split; [exact L|]. split; [exists inverse; reflexivity|].
  assert (G : forall i, (i < 8)%nat -> edge (vget (mat_vec 8 8 inverse (start ++ end_))) h i = vget (start ++ end_) i).
  { intros i Hi. rewrite <- mapping_rows by (try apply vget_short; auto; lra). rewrite <- (inverse_right inverse h I (vget (start ++ end_)) i Hi).
    apply times_ext; [reflexivity|]. intros k Hk. apply vget_mat_vec, Hk. }
  intros r Hr. pose proof (G r ltac:(lia)) as G1. pose proof (G (4 + r)%nat ltac:(lia)) as G2. unfold edge, vget in G1, G2.
  rewrite app_nth1 in G1 by lia. rewrite app_nth2 in G2 by lia. replace (4 + r - List.length start)%nat with r in G2 by lia.
  rewrite (proj2 (Nat.ltb_lt r 4)) in G1 by lia. rewrite (proj2 (Nat.ltb_ge (4 + r) 4)) in G2 by lia. rewrite Nat.mod_small in G1 by lia.
  replace ((4 + r) mod 4)%nat with r in G2 by (rewrite <- (Nat.mod_small r 4) at 1 by lia; replace (4 + r)%nat with (r + 1 * 4)%nat by lia; rewrite Nat.mod_add by lia; reflexivity).
  split; [exact G1|exact G2].
Qed.

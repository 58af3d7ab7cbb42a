(** Rotation matrices handed to SO3, and the rotation between two pairs of directions (used by C99, C100). *)
From Coq Require Import ZArith List Bool Arith Reals Lra Lia.
From Coquelicot Require Import Coquelicot.
From Verif Require Import Base.Scalar Base.RNum Base.Lists Base.Series Base.Det Model.Vector Model.Matrix Model.Lu Model.Quaternion Model.Lie Spec.Matrix Spec.Rotation Spec.Quaternion Proofs.Matrix Proofs.Algebra Proofs.Quaternion Proofs.Angle Proofs.Rotation Proofs.Attitude.
Import ListNotations.
Local Open Scope R_scope.
Local Notation sqrt := R_sqrt.sqrt.
Local Notation length := Spec.Rotation.length.

Lemma coordinate_inj u v : equal_vectors 3 (coordinate u) (coordinate v) -> u = v.
Proof. intros H. destruct u as [[a b] c], v as [[a' b'] c']. pose proof (H 0%nat ltac:(lia)) as A. pose proof (H 1%nat ltac:(lia)) as B. pose proof (H 2%nat ltac:(lia)) as C. cbn in A, B, C. congruence. Qed.
Lemma carries_equal m m' p q : equal 3 3 m m' -> carries m p q -> carries m' p q.
Proof. intros E C i Hi. rewrite <- (C i Hi). unfold times. apply bsum_ext. intros k Hk. rewrite E by auto. reflexivity. Qed.
Lemma carries_fun m p q q' : carries m p q -> carries m p q' -> q = q'.
Proof. intros A B. apply coordinate_inj. intros i Hi. rewrite <- (A i Hi). apply B, Hi. Qed.
Lemma transform_carried q m v w : unit_quaternion q -> equal 3 3 (mget (to_rotation_matrix q)) m -> carries m v w -> transform_point q v = w.
Proof. intros U E C. eapply carries_fun; [|exact C]. eapply carries_equal; [exact E|]. apply rotation_matrix_carries, U. Qed.
Lemma determinant_3 (m : mat R) : determinant 3 m = det 3 (mget m).
Proof. unfold determinant, determinant_3x3, det, without, skip, bsum. cbn [Nat.ltb Nat.leb pow]. rnum. ring. Qed.

(** The matrix is looked at when its columns are orthonormal up to the tolerance and its determinant is positive. *)
Lemma gram_accepts (m : mat R) : so3_try_from_matrix m = try_from_rotation_matrix m /\ (forall i j, (i < 3)%nat -> (j < 3)%nat -> Rabs (product 3 (transposed (mget m)) (mget m) i j - unit_matrix i j) <= small) /\ 0 < det 3 (mget m) \/
  so3_try_from_matrix m = None /\ ~ ((forall i j, (i < 3)%nat -> (j < 3)%nat -> Rabs (product 3 (transposed (mget m)) (mget m) i j - unit_matrix i j) <= small) /\ 0 < det 3 (mget m)).
Proof.
  unfold so3_try_from_matrix. rewrite determinant_3.
  assert (G : forall i j, (i < 3)%nat -> (j < 3)%nat -> mget (mat_mul 3 3 3 (transpose 3 3 m) m) i j = product 3 (transposed (mget m)) (mget m) i j).
  { intros i j Hi Hj. rewrite mget_mul by auto. apply bsum_ext. intros k Hk. rewrite mget_transpose by auto. reflexivity. }
  set (ok := forallb _ _).
  assert (OK : ok = true <-> forall i j, (i < 3)%nat -> (j < 3)%nat -> Rabs (product 3 (transposed (mget m)) (mget m) i j - unit_matrix i j) <= small).
  { unfold ok. rewrite forallb_forall. split.
    - intros H i j Hi Hj. assert (Ii : In i (range 0 3)) by (unfold range; apply in_seq; lia). assert (Ij : In j (range 0 3)) by (unfold range; apply in_seq; lia).
      specialize (H i Ii). rewrite forallb_forall in H. specialize (H j Ij). rewrite G in H by auto. revert H. rnum. cbn [negb orb]. rewrite negb_true_iff. fold small. unfold unit_matrix, Rltb. destruct (Rlt_dec _ _); [discriminate|intros _]. lra.
    - intros H i Ii. apply forallb_forall. intros j Ij. unfold range in Ii, Ij. apply in_seq in Ii. apply in_seq in Ij. specialize (H i j ltac:(lia) ltac:(lia)). rewrite G by lia. rnum. cbn [negb orb]. rewrite negb_true_iff. fold small. unfold unit_matrix, Rltb in *. destruct (Rlt_dec _ _); [lra|reflexivity]. }
  destruct ok.
  - cbn [negb]. rnum. cbn [negb orb]. unfold Rleb. destruct (Rle_dec _ _) as [L|L]; [right|left]; (split; [reflexivity|]).
    + intros [_ D]. lra.
    + split; [apply OK; reflexivity|lra].
  - right. split; [reflexivity|]. intros [H _]. apply OK in H. discriminate.
Qed.
Lemma so3_from_matrix_proper (m : mat R) : proper_rotation (mget m) -> exists q, so3_try_from_matrix m = Some q /\ unit_quaternion q /\ equal 3 3 (mget (to_rotation_matrix q)) (mget m).
Proof.
  intros P. destruct (from_matrix_proper m P) as (q & Q & U & E). exists q. split; [|auto]. destruct P as [P D]. destruct (gram_accepts m) as [[A _]|[_ N]]; [rewrite A; exact Q|].
  exfalso. apply N. split; [|lra]. intros i j Hi Hj. rewrite (P i j Hi Hj). unfold Rminus. rewrite Rplus_opp_r, Rabs_R0. pose proof small_bound. lra.
Qed.

(** ** Two pairs of directions *)
Lemma axes_carry a b c : carries (mget (axes a b c)) (1, 0, 0) a /\ carries (mget (axes a b c)) (0, 1, 0) b /\ carries (mget (axes a b c)) (0, 0, 1) c.
Proof.
  destruct a as [[a1 a2] a3], b as [[b1 b2] b3], c as [[c1 c2] c3]. repeat split; intros i Hi; unfold times, bsum; unfold axes; rewrite !mget_mat_fn by (auto; lia); unfold coordinate, vget, list3; three i; cbn [nth]; ring.
Qed.
Lemma axes_proper a c : inner a a = 1 -> inner c c = 1 -> inner a c = 0 -> proper_rotation (mget (axes a (outer c a) c)).
Proof.
  destruct a as [[a1 a2] a3], c as [[c1 c2] c3]. unfold inner. intros A C O. 
  assert (L : (a1 * a1 + a2 * a2 + a3 * a3) * (c1 * c1 + c2 * c2 + c3 * c3) - (a1 * c1 + a2 * c2 + a3 * c3) * (a1 * c1 + a2 * c2 + a3 * c3) = 1) by (rewrite A, C, O; ring).
  assert (M : forall i j, (i < 3)%nat -> (j < 3)%nat -> mget (axes (a1, a2, a3) (outer (c1, c2, c3) (a1, a2, a3)) (c1, c2, c3)) i j = nth i (nth j [[a1; a2; a3]; [c2 * a3 - c3 * a2; c3 * a1 - c1 * a3; c1 * a2 - c2 * a1]; [c1; c2; c3]] []) 0).
  { intros i j Hi Hj. unfold axes. rewrite mget_mat_fn by auto. unfold vget, list3, outer. three i; three j; reflexivity. }
  split.
  - intros i j Hi Hj. unfold product, transposed, bsum. rewrite !M by lia. three i; three j; cbn [nth unit_matrix Nat.eqb]; unfold unit_matrix; cbn [Nat.eqb]; try lra.
  - unfold det, without, skip, bsum. cbn [Nat.ltb Nat.leb pow]. rewrite !M by lia. cbn [nth]. etransitivity; [|exact L]. ring.
Qed.
Lemma rotation_product q p m : unit_quaternion p -> unit_quaternion q -> (forall v w, carries m v w <-> transform_point p (transform_point q v) = w) -> proper_rotation m.
Proof.
  intros P Q H. assert (U := unit_mul p q P Q). destruct (rotation_matrix_proper _ U) as [O D].
  assert (E : equal 3 3 m (mget (to_rotation_matrix (quat_mul p q)))). { apply carries_unique. intros v w C. apply H in C. rewrite <- C, <- transform_mul. apply rotation_matrix_carries, U. }
  split.
  - intros i j Hi Hj. rewrite <- (O i j Hi Hj). unfold product, transposed. apply bsum_ext. intros k Hk. rewrite !E by auto. reflexivity.
  - rewrite <- D. apply det_ext, E.
Qed.
Lemma axes_product (ra rb rc oa oc : point) : inner oa oa = 1 -> inner oc oc = 1 -> inner oa oc = 0 -> inner ra ra = 1 -> inner rc rc = 1 -> inner ra rc = 0 -> rb = outer rc ra ->
  let m := mat_mul 3 3 3 (axes ra rb rc) (transpose 3 3 (axes oa (outer oc oa) oc)) in
  exists q, so3_try_from_matrix m = Some q /\ unit_quaternion q /\ transform_point q oa = ra /\ transform_point q oc = rc.
Proof.
  intros A1 A2 A3 B1 B2 B3 ->. cbv zeta. set (o := axes oa (outer oc oa) oc). set (r := axes ra (outer rc ra) rc).
  assert (PO := axes_proper oa oc A1 A2 A3). assert (PR := axes_proper ra rc B1 B2 B3). fold o in PO. fold r in PR.
  destruct (from_matrix_proper o PO) as (p & _ & UP & EP). destruct (from_matrix_proper r PR) as (s & _ & US & ES).
  destruct (axes_carry oa (outer oc oa) oc) as (O1 & _ & O3). destruct (axes_carry ra (outer rc ra) rc) as (R1 & _ & R3). fold o in O1, O3. fold r in R1, R3.
  set (m := mat_mul 3 3 3 r (transpose 3 3 o)).
  assert (C : forall v, carries (mget m) v (transform_point s (transform_point (conjugate p) v))).
  { intros v i Hi. rewrite <- (rotation_matrix_carries s (transform_point (conjugate p) v) US i Hi).
    transitivity (times 3 (product 3 (mget r) (transposed (mget o))) (coordinate v) i).
    { unfold times. apply bsum_ext. intros k Hk. f_equal. unfold m. rewrite mget_mul by auto. apply bsum_ext. intros l Hl. rewrite mget_transpose by auto. reflexivity. }
    rewrite times_product. unfold times at 1 3. apply bsum_ext. intros k Hk. rewrite ES by auto. f_equal.
    rewrite <- (rotation_matrix_carries (conjugate p) v (unit_conjugate p UP) k Hk). unfold times. apply bsum_ext. intros l Hl. f_equal. unfold transposed. rewrite <- EP by auto.
    destruct p as [w x y z]. unfold to_rotation_matrix, conjugate, mget. cbn [qw qx qy qz]. rnum. three k; three l; cbn [nth]; ring. }
  assert (PM : proper_rotation (mget m)). { apply (rotation_product (conjugate p) s); [assumption|apply unit_conjugate, UP|]. intros v w. split; [intros K; eapply carries_fun; [apply C|exact K]|intros <-; apply C]. }
  destruct (so3_from_matrix_proper m PM) as (q & Q & U & E). exists q. split; [exact Q|]. split; [exact U|].
  assert (T : forall v, transform_point q v = transform_point s (transform_point (conjugate p) v)) by (intros v; eapply transform_carried; [exact U|exact E|apply C]).
  assert (UO : forall v w, carries (mget o) v w -> transform_point (conjugate p) w = v). { intros v w K. rewrite <- (transform_carried p _ v w UP EP K). apply transform_undo, UP. }
  split; rewrite T.
  - rewrite (UO _ _ O1). apply (transform_carried s _ _ _ US ES R1).
  - rewrite (UO _ _ O3). apply (transform_carried s _ _ _ US ES R3).
Qed.
Lemma try_direction u : u <> (0, 0, 0) -> try_normalized3 u = Some (direction u).
Proof. intros N. rewrite try_normalized3_R. destruct (Req_EM_T _ _) as [Z|]; [exfalso; apply N, length_zero, Z|reflexivity]. Qed.
Lemma try_direction_zero : try_normalized3 ((0, 0, 0) : point) = None.
Proof. rewrite try_normalized3_R. destruct (Req_EM_T _ _) as [Z|N]; [reflexivity|]. exfalso. apply N, length_zero. reflexivity. Qed.
Lemma outer_direction u v : u <> (0, 0, 0) -> outer (direction u) v = multiple (/ length u) (outer u v).
Proof. intros _. unfold direction. destruct u as [[a b] c], v as [[d e] f]. set (k := / _). unfold outer, multiple. apply point_eq; ring. Qed.
Lemma direction_across u v : u <> (0, 0, 0) -> direction (outer (direction u) v) = direction (outer u v).
Proof.
  intros N. rewrite outer_direction by exact N. pose proof (length_pos u N). assert (0 < / length u) by (apply Rinv_0_lt_compat; assumption).
  destruct (Req_EM_T (length (outer u v)) 0) as [Z|Z].
  - apply length_zero in Z. rewrite Z. unfold direction, multiple. rewrite !Rmult_0_r. reflexivity.
  - apply direction_multiple; [assumption|]. intros E. apply Z, length_zero, E.
Qed.
Lemma outer_zero_direction u v : u <> (0, 0, 0) -> outer u v <> (0, 0, 0) -> outer (direction u) v <> (0, 0, 0).
Proof.
  intros N O. rewrite outer_direction by exact N. intros E. apply O, length_zero. apply length_zero in E. rewrite length_multiple in E. apply Rmult_integral in E as [E|E]; [|exact E]. exfalso.
  pose proof (length_pos u N). assert (0 < / length u) by (apply Rinv_0_lt_compat; assumption). rewrite Rabs_pos_eq in E; lra.
Qed.
Lemma inner_across u v : u <> (0, 0, 0) -> inner (direction u) (direction (outer u v)) = 0.
Proof. intros _. unfold direction. rewrite inner_multiple_l, inner_multiple_r. replace (inner u (outer u v)) with 0; [ring|]. rewrite inner_sym. symmetry. apply outer_self_l. Qed.
Lemma pairs_R po so pr sr : po <> (0, 0, 0) -> outer po so <> (0, 0, 0) -> pr <> (0, 0, 0) -> outer pr sr <> (0, 0, 0) ->
  exists q, from_two_direction_pairs po so pr sr = Some q /\ unit_quaternion q /\ transform_point q (direction po) = direction pr /\ transform_point q (direction (outer po so)) = direction (outer pr sr).
Proof.
  intros P S P' S'. unfold from_two_direction_pairs. rewrite !is_finite3_R. cbn [negb orb]. rewrite (try_direction po P). change (cross3 (direction po) so) with (outer (direction po) so). rewrite (try_direction _ (outer_zero_direction _ _ P S)), (try_direction pr P').
  change (cross3 (direction pr) sr) with (outer (direction pr) sr). rewrite (try_direction _ (outer_zero_direction _ _ P' S')), !direction_across by assumption. cbv zeta.
  change (cross3 (direction (outer po so)) (direction po)) with (outer (direction (outer po so)) (direction po)).
  apply axes_product; try (apply direction_unit; assumption); try (apply inner_across; assumption). reflexivity.
Qed.
Lemma pairs_refused po so pr sr : po = (0, 0, 0) \/ outer po so = (0, 0, 0) \/ pr = (0, 0, 0) \/ outer pr sr = (0, 0, 0) -> from_two_direction_pairs po so pr sr = None.
Proof.
  assert (D : forall u : point, u = (0, 0, 0) \/ u <> (0, 0, 0)) by (intros u; destruct (Req_EM_T (length u) 0) as [Z|Z]; [left; apply length_zero, Z|right; intros E; apply Z, length_zero, E]).
  assert (O : forall u v : point, outer u v = (0, 0, 0) -> outer (direction u) v = (0, 0, 0)).
  { intros u v E. destruct u as [[a b] c], v as [[d e] f]. unfold direction. set (k := / _). unfold outer, multiple in *. injection E as E1 E2 E3. apply point_eq; rewrite <- (Rmult_0_r k); [rewrite <- E1|rewrite <- E2|rewrite <- E3]; ring. }
  intros H. unfold from_two_direction_pairs. rewrite !is_finite3_R. cbn [negb orb].
  destruct (D po) as [-> |P]; [rewrite try_direction_zero; reflexivity|]. rewrite (try_direction po P), cross3_R. destruct (D (outer po so)) as [S|S]; [rewrite (O _ _ S), try_direction_zero; reflexivity|].
  rewrite (try_direction _ (outer_zero_direction _ _ P S)). destruct (D pr) as [-> |P']; [rewrite try_direction_zero; reflexivity|]. rewrite (try_direction pr P'), cross3_R. destruct (D (outer pr sr)) as [S'|S']; [rewrite (O _ _ S'), try_direction_zero; reflexivity|]. tauto.
Qed.

(** The minimum snap planner over the reals: what its pieces are, and why no other path costs less. *)
From Coq Require Import ZArith List Bool Arith Reals Lra Lia.
From Coquelicot Require Import Coquelicot.
From Verif Require Import Base.Scalar Base.RNum Base.Lists Base.Series Model.Errors Model.Vector Model.Matrix Model.Lu Model.Polynomial Model.Piecewise Model.MinimumSnap
  Spec.Matrix Spec.Polynomial Spec.Piecewise Spec.MinimumSnap Proofs.Matrix Proofs.SnapPiece Proofs.SnapSystem Props.Lu Props.Piecewise.
Import ListNotations.
Local Open Scope R_scope.

(** ** What a plan is made of *)
Lemma segment_pieces_spec axes b0 b1 h : forall pieces, segment_pieces axes b0 b1 h = Ok pieces ->
  List.length pieces = List.length axes /\ forall i, (i < List.length axes)%nat ->
    septic_from_endpoint_derivatives (along_one_axis b0 (nth i axes 0%nat)) (along_one_axis b1 (nth i axes 0%nat)) h = Ok (nth i pieces ([] : list R)).
Proof.
  induction axes as [|a axes IH]; intros pieces E; cbn [segment_pieces] in E; [injection E as <-; split; [reflexivity|cbn; lia]|].
  destruct (septic_from_endpoint_derivatives _ _ _) as [p| |] eqn:P; try discriminate. destruct (segment_pieces axes b0 b1 h) as [ps| |]; try discriminate. injection E as <-.
  destruct (IH ps eq_refl) as [L Q]. split; [cbn; lia|]. intros [|i] Hi; [exact P|]. apply Q. cbn in Hi. lia.
Qed.
Lemma all_pieces_spec d blocks durations : forall segment pieces, all_pieces d blocks segment durations = Ok pieces ->
  List.length pieces = List.length durations /\ forall k, (k < List.length durations)%nat -> List.length (nth k pieces []) = d /\
    forall a, (a < d)%nat -> septic_from_endpoint_derivatives (along_one_axis (blocks (segment + k)%nat) a) (along_one_axis (blocks (S (segment + k))) a) (nth k durations 0) = Ok (nth a (nth k pieces []) ([] : list R)).
Proof.
  induction durations as [|h rest IH]; intros segment pieces E; cbn [all_pieces] in E; [injection E as <-; split; [reflexivity|cbn; lia]|].
  destruct (segment_pieces _ _ _ _) as [ps| |] eqn:P; try discriminate. destruct (all_pieces d blocks (S segment) rest) as [qs| |] eqn:Q; try discriminate. injection E as <-.
  destruct (IH _ _ Q) as [L K]. destruct (segment_pieces_spec _ _ _ _ _ P) as [L1 K1]. rewrite seq_length in L1, K1. split; [cbn; lia|]. intros [|k] Hk.
  - cbn [nth]. rewrite Nat.add_0_r. split; [exact L1|]. intros a Ha. specialize (K1 a Ha). rewrite seq_nth in K1 by exact Ha. exact K1.
  - cbn [nth]. replace (segment + S k)%nat with (S segment + k)%nat by lia. apply K. cbn in Hk. lia.
Qed.
Lemma block_entry d kind solved w r a : (r < 4)%nat -> (a < d)%nat -> nth r (along_one_axis (waypoint_block d kind solved w) a) 0 = chosen (mget solved) (kind w r) a.
Proof.
  intros Hr Ha. unfold along_one_axis, waypoint_block. rewrite (nth_indep _ 0 (vget ([] : list R) a)) by (rewrite map_length, from_fn_length; exact Hr).
  rewrite (map_nth (fun v => vget v a)). rewrite nth_from_fn by exact Hr. destruct (kind w r); [reflexivity|]. cbn [chosen]. apply vget_from_fn, Ha.
Qed.

Section Plan.
  Variables (max_segments max_free d : nat) (start end_ : @boundary R) (waypoints : list (list R)) (durations : list R) (path : Piecewise R).
  Hypothesis Hplan : plan max_segments max_free d start end_ waypoints durations = Ok path.
  Let n := List.length durations.
  Let kind := classify d start end_ waypoints n.
  Let coefs (k a : nat) : nat -> R := vget (nth a (nth k (pw_pieces path) []) []).
  Let span (k : nat) : R := nth k durations 0.
Lemma plan_spec : List.length waypoints = S n /\ (1 <= n)%nat /\ (n <= max_segments)%nat /\ (3 * (n - 1) <= max_free)%nat /\ (forall k, (k < n)%nat -> 0 < span k) /\
    pw_spans path = durations /\ List.length (pw_pieces path) = n /\ piecewise_try_from_pieces max_segments (pw_pieces path) durations = Ok path /\
    exists X, (forall k, (k < n)%nat -> List.length (nth k (pw_pieces path) []) = d /\ forall a, (a < d)%nat -> List.length (nth a (nth k (pw_pieces path) []) []) = 8%nat /\
      forall r, (r < 4)%nat -> piece_slope (coefs k a) 0 (span k) r 0 = chosen X (kind k r) a /\ piece_slope (coefs k a) 0 (span k) r (span k) = chosen X (kind (S k) r) a) /\
    (forall w r a, (1 <= w < n)%nat -> (1 <= r <= 3)%nat -> (a < d)%nat -> pull (coefs (w - 1) a) (span (w - 1)) (4 + r) + pull (coefs w a) (span w) r = 0).
Proof.
    pose proof Hplan as E. unfold plan in E. destruct (Nat.ltb_spec (List.length waypoints) 2) as [|L]; [discriminate|]. cbv zeta in E.
    destruct (Nat.ltb_spec max_segments (List.length waypoints - 1)) as [|Hms]; [discriminate|].
    destruct (Nat.eqb_spec (List.length durations) (List.length waypoints - 1)) as [Ld|]; [|discriminate]. cbn [negb] in E. fold n in Ld.
    destruct (existsb _ durations) eqn:Ex; [discriminate|]. destruct (_ || _ || _)%bool; [discriminate|].
    destruct (Nat.ltb_spec max_free (3 * (List.length waypoints - 1 - 1))) as [|Hmf]; [discriminate|]. rewrite <- Ld in *. fold kind in E.
    assert (Hpos : forall k, (k < n)%nat -> 0 < span k).
    { intros k Hk. destruct (Rlt_dec 0 (span k)) as [|N]; [auto|]. exfalso. apply Bool.not_true_iff_false in Ex. apply Ex. apply existsb_exists. exists (span k).
      split; [apply nth_In; exact Hk|]. rnum. cbn. apply Rleb_true. lra. }
    destruct (assemble _ _ _ _ _) as [[reduced known]| |] eqn:A; try discriminate.
    assert (Shapes := reduced_shape max_free d start end_ waypoints durations Hmf reduced known A).
    assert (Sol : exists solved, all_pieces d (waypoint_block d kind solved) 0 durations = Ok (pw_pieces path) /\ piecewise_try_from_pieces max_segments (pw_pieces path) durations = Ok path /\ pw_spans path = durations /\
       (n <> 1%nat -> equal max_free d (product max_free (mget (snap_system max_free (3 * (n - 1)) reduced)) (mget solved)) (mget known))).
    { destruct (Nat.eqb_spec (3 * (n - 1)) 0) as [Z|Z].
      - destruct (all_pieces _ _ _ _) as [ps| |] eqn:P; try discriminate. destruct (piecewise_try_from_pieces _ ps durations) as [q| |] eqn:Q; try discriminate. injection E as ->.
        destruct (proj1 (C54_accepts _ _ _ _ _ _) Q) as (-> & _). exists (mat_zeros max_free d). cbn [pw_pieces pw_spans] in *. repeat (split; [auto|]). lia.
      - destruct (lu_decompose _ _) as [f| |] eqn:Lu; try discriminate. destruct (all_pieces _ _ _ _) as [ps| |] eqn:P; try discriminate. destruct (piecewise_try_from_pieces _ ps durations) as [q| |] eqn:Q; try discriminate. injection E as ->.
        destruct (proj1 (C54_accepts _ _ _ _ _ _) Q) as (-> & _). exists (lu_solve_matrix max_free d f known). cbn [pw_pieces pw_spans] in *. repeat (split; [auto|]). intros _.
        apply (C76_solve_matrix max_free d _ f known); [|exact Lu]. unfold snap_system, range.
        assert (G : forall l m, shape max_free max_free m -> shape max_free max_free (fold_left (fun system row => mset system row row (one : R)) l m)) by (induction l as [|x l IHl]; intros m Hm; [exact Hm|apply IHl, shape_mset, Hm]).
        apply G, shape_mat_fn. }
    destruct Sol as (solved & P & Q & Sp & Eq). destruct (all_pieces_spec _ _ _ _ _ P) as [Lp Kp].
    assert (Pieces : forall k, (k < n)%nat -> List.length (nth k (pw_pieces path) []) = d /\ forall a, (a < d)%nat -> List.length (nth a (nth k (pw_pieces path) []) []) = 8%nat /\
      forall r, (r < 4)%nat -> piece_slope (coefs k a) 0 (span k) r 0 = chosen (mget solved) (kind k r) a /\ piece_slope (coefs k a) 0 (span k) r (span k) = chosen (mget solved) (kind (S k) r) a).
    { intros k Hk. destruct (Kp k Hk) as [L1 K1]. split; [exact L1|]. intros a Ha. specialize (K1 a Ha). cbn [plus] in K1. apply septic_spec in K1.
      2,3: unfold along_one_axis, waypoint_block; rewrite map_length; apply from_fn_length.
      destruct K1 as (_ & L8 & _ & K1). split; [exact L8|]. intros r Hr. destruct (K1 r Hr) as [K2 K3]. rewrite block_entry in K2, K3 by auto. split; assumption. }
    split; [lia|]. split; [lia|]. split; [lia|]. split; [exact Hmf|]. split; [exact Hpos|]. split; [exact Sp|]. split; [exact Lp|]. split; [exact Q|].
    exists (mget solved). split; [exact Pieces|]. intros w r a Hw Hr Ha.
    assert (Dr : forall s lr, (s < n)%nat -> (lr < 8)%nat -> drawn d start end_ waypoints durations (mget solved) a s lr = pull (coefs s a) (span s) lr).
    { intros s lr Hs Hlr. unfold drawn, terms_of. fold n. fold kind. destruct (all_inverses max_free d start end_ waypoints durations Hmf reduced known A s Hs) as [inv I]. rewrite I.
      destruct (Pieces s Hs) as [_ Pa]. destruct (Pa a Ha) as [L8 Pr]. rewrite <- (terms_pull inv (span s) (Rgt_not_eq _ _ (Hpos s Hs)) I (coefs s a) lr (vget_short _ L8) Hlr).
      apply times_ext; [reflexivity|]. intros i Hi. unfold local_kind, edge. assert (D : (i mod 4 < 4)%nat) by (apply Nat.mod_upper_bound; lia).
      destruct (Nat.ltb_spec i 4); [rewrite (Nat.div_small i 4) by auto; rewrite Nat.add_0_r; symmetry; apply Pr, D|].
      replace (i / 4)%nat with 1%nat by (apply (Nat.div_unique i 4 1 (i - 4)); lia). rewrite Nat.add_1_r. symmetry. apply Pr, D. }
    rewrite <- !Dr by lia. apply (joint_balance max_free d start end_ waypoints durations Hmf reduced known A (mget solved)); auto.
    intros i b Hi Hb. fold n. exact (Eq ltac:(lia) i b Hi Hb).
Qed.
End Plan.

(** ** One axis *)
Lemma slope_shift c a h r t : piece_slope c a h r t = piece_slope c 0 h r (t - a).
Proof. unfold piece_slope. rewrite Rminus_0_r. reflexivity. Qed.
Lemma planned_slope pieces spans axis k r t : List.length (nth axis (nth k pieces []) []) = 8%nat -> nth k spans 0 <> 0 ->
  planned pieces spans axis k r t = piece_slope (vget (nth axis (nth k pieces []) [])) (piece_start spans k) (nth k spans 0) r t.
Proof.
  intros L H. unfold planned. revert t. induction r as [|r IH]; intros t.
  - cbn [Derive_n]. unfold along. symmetry. apply slope_value, L.
  - cbn [Derive_n]. rewrite (Derive_ext _ _ t IH). apply is_derive_unique, slope_derive; [apply vget_short, L|exact H].
Qed.
Lemma slope_eighth c a h t : short c -> piece_slope c a h 8 t = 0.
Proof.
  intros Sh. unfold piece_slope. rewrite (bsum_ext 8 _ (fun _ => 0)) by (intros j Hj; rewrite (lowered_vanish 8 c Sh) by lia; ring). rewrite bsum_0. unfold Rdiv. ring.
Qed.
Lemma is_derive_continuous f (t l : R) : is_derive f t l -> continuous f t.
Proof. intros H. apply (ex_derive_continuous f t). exists l. exact H. Qed.

Section Axis.
  Variables (spans : list R) (c : nat -> nat -> R) (V : nat -> nat -> R).
  Let n := List.length spans.
  Let from k := piece_start spans k.
  Let span k := nth k spans 0.
  Hypothesis Hn : (1 <= n)%nat.
  Hypothesis Hpos : forall k, (k < n)%nat -> 0 < span k.
  Hypothesis Hshort : forall k, (k < n)%nat -> short (c k).
  Hypothesis Hends : forall k r, (k < n)%nat -> (r < 4)%nat -> piece_slope (c k) 0 (span k) r 0 = V k r /\ piece_slope (c k) 0 (span k) r (span k) = V (S k) r.
  Hypothesis Hpull : forall w r, (1 <= w < n)%nat -> (1 <= r <= 3)%nat -> pull (c (w - 1)) (span (w - 1)) (4 + r) + pull (c w) (span w) r = 0.
  Definition P (k r : nat) (t : R) : R := piece_slope (c k) (piece_start spans k) (nth k spans 0) r t.
Lemma from_next k : from (S k) = from k + span k.
Proof. reflexivity. Qed.
Lemma P_start k r : P k r (from k) = piece_slope (c k) 0 (span k) r 0.
Proof. unfold P. rewrite slope_shift. unfold from. rewrite Rminus_eq_0. reflexivity. Qed.
Lemma P_end k r : P k r (from (S k)) = piece_slope (c k) 0 (span k) r (span k).
Proof. unfold P. rewrite slope_shift, from_next. unfold from. replace (piece_start spans k + span k - piece_start spans k) with (span k) by ring. reflexivity. Qed.
Lemma P_derive k r t : (k < n)%nat -> is_derive (P k r) t (P k (S r) t).
Proof. intros Hk. apply slope_derive; [apply Hshort, Hk|apply Rgt_not_eq, Hpos, Hk]. Qed.
Lemma P_joint k q : (S k < n)%nat -> (q <= 6)%nat -> P k q (from (S k)) = P (S k) q (from (S k)).
Proof.
    intros Hk Hq. rewrite P_end, P_start. destruct (Nat.lt_ge_cases q 4) as [Q|Q].
    - rewrite (proj2 (Hends k q ltac:(lia) Q)), (proj1 (Hends (S k) q Hk Q)). reflexivity.
    - assert (B := Hpull (S k) (7 - q) ltac:(lia) ltac:(lia)). replace (S k - 1)%nat with k in B by lia. unfold pull in B.
      rewrite (proj2 (Nat.ltb_ge (4 + (7 - q)) 4)) in B by lia. rewrite (proj2 (Nat.ltb_lt (7 - q) 4)) in B by lia.
      replace (7 - (4 + (7 - q)))%nat with (q - 4)%nat in B by lia. replace (11 - (4 + (7 - q)))%nat with q in B by lia. replace (3 - (7 - q))%nat with (q - 4)%nat in B by lia. replace (7 - (7 - q))%nat with q in B by lia.
      assert (Z : (-1) ^ (q - 4) <> 0) by (apply pow_nonzero; lra).
      apply (Rmult_eq_reg_l ((-1) ^ (q - 4))); [lra|exact Z].
Qed.
Lemma P_path : piece_path spans P.
Proof. intros k Hk t _. split; [intros r _; apply P_derive, Hk|]. apply (is_derive_continuous _ _ (P k 5 t)), P_derive, Hk. Qed.
Lemma P_passes : passes spans (fun w => V w 0%nat) (V 0%nat) (V n) P.
Proof.
    split; [|split].
    - intros k Hk. fold (from k). fold (from (S k)). rewrite (P_start k 0), (P_end k 0). apply Hends; [exact Hk|lia].
    - intros k r Hk Hr. apply P_joint; [exact Hk|lia].
    - intros r Hr. split.
      + change 0 with (from 0%nat) at 1. rewrite P_start. apply Hends; [exact Hn|lia].
      + unfold curve_end. fold n. replace n with (S (n - 1)) at 2 3 by lia. fold (from (S (n - 1))). rewrite P_end. apply Hends; lia.
Qed.

  (** *** Another path through the same waypoints *)
  Variable F : nat -> nat -> R -> R.
  Hypothesis HF : piece_path spans F.
  Hypothesis HP : passes spans (fun w => V w 0%nat) (V 0%nat) (V n) F.
  Definition E (k r : nat) (t : R) : R := F k r t - P k r t.
  Definition work (k : nat) (t : R) : R := P k 4 t * E k 3 t - P k 5 t * E k 2 t + P k 6 t * E k 1 t - P k 7 t * E k 0 t.
Lemma from_le k : (k < n)%nat -> from k <= from (S k).
Proof. intros Hk. rewrite from_next. pose proof (Hpos k Hk). lra. Qed.
Lemma E_derive k r t : (k < n)%nat -> (r < 4)%nat -> from k <= t <= from (S k) -> is_derive (E k r) t (E k (S r) t).
Proof. intros Hk Hr Ht. apply (is_derive_minus (F k r) (P k r)); [apply HF; auto|apply P_derive, Hk]. Qed.
Lemma E_continuous k t : (k < n)%nat -> from k <= t <= from (S k) -> continuous (E k 4) t.
Proof. intros Hk Ht. apply (continuous_minus (F k 4%nat) (P k 4%nat)); [apply HF; auto|]. apply (is_derive_continuous _ _ (P k 5 t)), P_derive, Hk. Qed.
Lemma P_continuous k r t : (k < n)%nat -> continuous (P k r) t.
Proof. intros Hk. apply (is_derive_continuous _ _ (P k (S r) t)), P_derive, Hk. Qed.
Lemma work_derive k t : (k < n)%nat -> from k <= t <= from (S k) -> is_derive (work k) t (P k 4 t * E k 4 t).
Proof.
    intros Hk Ht. assert (Z : P k 8 t = 0) by (apply slope_eighth, Hshort, Hk). unfold work.
    pose proof (P_derive k 4 t Hk) as D4. pose proof (P_derive k 5 t Hk) as D5. pose proof (P_derive k 6 t Hk) as D6. pose proof (P_derive k 7 t Hk) as D7.
    pose proof (E_derive k 0 t Hk ltac:(lia) Ht) as E0. pose proof (E_derive k 1 t Hk ltac:(lia) Ht) as E1. pose proof (E_derive k 2 t Hk ltac:(lia) Ht) as E2. pose proof (E_derive k 3 t Hk ltac:(lia) Ht) as E3.
    evar (l : R). replace (P k 4 t * E k 4 t) with l.
    - unfold l. apply (is_derive_minus (fun t => P k 4 t * E k 3 t - P k 5 t * E k 2 t + P k 6 t * E k 1 t) (fun t => P k 7 t * E k 0 t)).
      + apply (is_derive_plus (fun t => P k 4 t * E k 3 t - P k 5 t * E k 2 t) (fun t => P k 6 t * E k 1 t)).
        * apply (is_derive_minus (fun t => P k 4 t * E k 3 t) (fun t => P k 5 t * E k 2 t)); apply (is_derive_mult (P k _) (E k _)); eauto; intros; apply Rmult_comm.
        * apply (is_derive_mult (P k _) (E k _)); eauto; intros; apply Rmult_comm.
      + apply (is_derive_mult (P k _) (E k _)); eauto; intros; apply Rmult_comm.
    - unfold l, minus, plus, opp, mult; cbn. rewrite Z. ring.
Qed.
Lemma between k t : (k < n)%nat -> Rmin (from k) (from (S k)) <= t <= Rmax (from k) (from (S k)) -> from k <= t <= from (S k).
Proof. intros Hk. rewrite Rmin_left, Rmax_right by (apply from_le, Hk). auto. Qed.
Lemma work_integral k : (k < n)%nat -> is_RInt (fun t => P k 4 t * E k 4 t) (from k) (from (S k)) (work k (from (S k)) - work k (from k)).
Proof.
    intros Hk. apply (is_RInt_derive (work k) (fun t => P k 4 t * E k 4 t)); intros t Ht; apply between in Ht; auto.
    - apply work_derive; auto.
    - apply (continuous_mult (P k 4%nat) (E k 4%nat)); [apply P_continuous, Hk|apply E_continuous; auto].
Qed.
Lemma E_node k : (k < n)%nat -> E k 0 (from k) = 0 /\ E k 0 (from (S k)) = 0.
Proof. intros Hk. destruct HP as (H1 & _). destruct P_passes as (Q1 & _). unfold E. destruct (H1 k Hk) as [A B], (Q1 k Hk) as [A' B']. unfold from. rewrite A, B, A', B'. split; ring. Qed.
Lemma E_joint k r : (S k < n)%nat -> (r <= 3)%nat -> E k r (from (S k)) = E (S k) r (from (S k)).
Proof.
    intros Hk Hr. destruct r as [|r]; [rewrite (proj2 (E_node k ltac:(lia))), (proj1 (E_node (S k) Hk)); reflexivity|].
    destruct HP as (_ & H2 & _). unfold E. rewrite (P_joint k (S r)) by lia. unfold from. rewrite (H2 k (S r)) by (auto; lia). reflexivity.
Qed.
Lemma E_first r : (r <= 3)%nat -> E 0 r (from 0) = 0.
Proof.
    intros Hr. destruct r as [|r]; [apply E_node; exact Hn|]. destruct HP as (_ & _ & H3). destruct P_passes as (_ & _ & Q3). unfold E. change (from 0) with 0.
    rewrite (proj1 (H3 (S r) ltac:(lia))), (proj1 (Q3 (S r) ltac:(lia))). ring.
Qed.
Lemma E_last r : (r <= 3)%nat -> E (n - 1) r (from n) = 0.
Proof.
    intros Hr. destruct r as [|r]; [replace n with (S (n - 1)) at 2 by lia; apply E_node; lia|]. destruct HP as (_ & _ & H3). destruct P_passes as (_ & _ & Q3). unfold E.
    pose proof (proj2 (H3 (S r) ltac:(lia))) as A. pose proof (proj2 (Q3 (S r) ltac:(lia))) as B. unfold curve_end in A, B. unfold n, from in *. rewrite A, B. ring.
Qed.
Lemma work_total : bsum n (fun k => work k (from (S k)) - work k (from k)) = 0.
Proof.
    set (H k := if Nat.ltb k n then work k (from k) else 0).
    rewrite (bsum_ext n _ (fun k => H (S k) - H k)).
    - assert (T : forall m, bsum m (fun k => H (S k) - H k) = H m - H 0%nat) by (induction m as [|m IH]; cbn [bsum]; [ring|rewrite IH; ring]).
      rewrite T. unfold H. rewrite Nat.ltb_irrefl. rewrite (proj2 (Nat.ltb_lt 0 n)) by lia. unfold work. rewrite !E_first by lia. ring.
    - intros k Hk. unfold H. rewrite (proj2 (Nat.ltb_lt k n)) by lia. destruct (Nat.ltb_spec (S k) n) as [Q|Q].
      + unfold work. rewrite (E_joint k 3), (E_joint k 2), (E_joint k 1), (P_joint k 4), (P_joint k 5), (P_joint k 6) by (auto; lia).
        rewrite (proj2 (E_node k Hk)), (proj1 (E_node (S k) Q)). ring.
      + replace k with (n - 1)%nat by lia. replace (S (n - 1)) with n by lia. unfold work. rewrite !E_last by lia. ring.
Qed.
Lemma square_continuous k t : (k < n)%nat -> from k <= t <= from (S k) -> continuous (fun t => E k 4 t * E k 4 t) t.
Proof. intros Hk Ht. apply (continuous_mult (E k 4%nat) (E k 4%nat)); apply E_continuous; auto. Qed.
Lemma square_integrable k : (k < n)%nat -> ex_RInt (fun t => E k 4 t * E k 4 t) (from k) (from (S k)).
Proof. intros Hk. apply (ex_RInt_continuous (fun t => E k 4 t * E k 4 t)). intros t Ht. apply between in Ht; auto. apply square_continuous; auto. Qed.
Lemma snap_split : snap spans F = snap spans P + bsum n (fun k => RInt (fun t => E k 4 t * E k 4 t) (from k) (from (S k))).
Proof.
    unfold snap. fold n. replace (bsum n (fun k => RInt (fun t => E k 4 t * E k 4 t) (from k) (from (S k)))) with (bsum n (fun k => RInt (fun t => E k 4 t * E k 4 t) (from k) (from (S k))) + 2 * bsum n (fun k => work k (from (S k)) - work k (from k))) by (rewrite work_total; ring).
    rewrite <- bsum_scal, <- !bsum_plus. apply bsum_ext. intros k Hk. apply is_RInt_unique. fold (from k). fold (from (S k)).
    assert (I1 : ex_RInt (fun t => P k 4 t ^ 2) (from k) (from (S k))).
    { apply (ex_RInt_continuous (fun t => P k 4 t ^ 2)). intros t _. apply (continuous_ext (fun t => P k 4 t * P k 4 t)); [intros x; match goal with |- @eq _ ?a ?b => change (@eq R a b) end; ring|]. apply (continuous_mult (P k 4%nat) (P k 4%nat)); apply P_continuous, Hk. }
    pose proof (RInt_correct _ _ _ I1) as J1. pose proof (RInt_correct _ _ _ (square_integrable k Hk)) as J2. pose proof (work_integral k Hk) as J3.
    pose proof (is_RInt_scal _ _ _ 2 _ J3) as J4. pose proof (is_RInt_plus _ _ _ _ _ _ J1 (is_RInt_plus _ _ _ _ _ _ J2 J4)) as J.
    revert J. apply is_RInt_ext. intros t _. unfold plus, scal, E; cbn. unfold mult; cbn. match goal with |- @eq _ ?a ?b => change (@eq R a b) end; ring.
Qed.
Lemma square_nonneg k : (k < n)%nat -> 0 <= RInt (fun t => E k 4 t * E k 4 t) (from k) (from (S k)).
Proof. intros Hk. apply RInt_ge_0; [apply from_le, Hk|apply square_integrable, Hk|intros; nra]. Qed.
Lemma snap_least : snap spans P <= snap spans F.
Proof. rewrite snap_split. pose proof (bsum_nonneg n _ square_nonneg). lra. Qed.

  (** *** A path that costs no more is the same path *)
Lemma bsum_zero_each m f : (forall i, (i < m)%nat -> 0 <= f i) -> bsum m f <= 0 -> forall i, (i < m)%nat -> f i = 0.
Proof.
    induction m as [|m IH]; intros H0 Hs i Hi; [lia|]. cbn [bsum] in Hs. pose proof (bsum_nonneg m f (fun i Hi => H0 i ltac:(lia))) as A. pose proof (H0 m ltac:(lia)) as B.
    destruct (Nat.eq_dec i m) as [->|]; [lra|]. apply IH; [intros; apply H0; lia|lra|lia].
Qed.
Lemma no_snap k : (k < n)%nat -> RInt (fun t => E k 4 t * E k 4 t) (from k) (from (S k)) = 0 -> forall t, from k <= t <= from (S k) -> E k 3 t = E k 3 (from k).
Proof.
    intros Hk Z t Ht. destruct (Req_dec t (from k)) as [->|Nt]; [reflexivity|]. assert (L : from k < t) by lra.
    assert (I : ex_RInt (fun u => E k 4 u * E k 4 u) (from k) t).
    { apply (ex_RInt_continuous (fun u => E k 4 u * E k 4 u)). intros u Hu. rewrite Rmin_left, Rmax_right in Hu by lra. apply square_continuous; auto; lra. }
    assert (I2 : ex_RInt (fun u => E k 4 u * E k 4 u) t (from (S k))).
    { apply (ex_RInt_continuous (fun u => E k 4 u * E k 4 u)). intros u Hu. rewrite Rmin_left, Rmax_right in Hu by lra. apply square_continuous; auto; lra. }
    pose proof (RInt_Chasles _ _ _ _ I I2) as Ch. rewrite Z in Ch. change (RInt (fun u => E k 4 u * E k 4 u) (from k) t + RInt (fun u => E k 4 u * E k 4 u) t (from (S k)) = 0) in Ch.
    assert (N1 : 0 <= RInt (fun u => E k 4 u * E k 4 u) (from k) t) by (apply RInt_ge_0; [lra|exact I|intros; nra]).
    assert (N2 : 0 <= RInt (fun u => E k 4 u * E k 4 u) t (from (S k))) by (apply RInt_ge_0; [lra|exact I2|intros; nra]).
    assert (Z1 : RInt (fun u => E k 4 u * E k 4 u) (from k) t = 0) by lra.
    pose proof (RInt_correct _ _ _ I) as J1. rewrite Z1 in J1.
    assert (J2 : is_RInt (E k 4) (from k) t (E k 3 t - E k 3 (from k))).
    { apply (is_RInt_derive (E k 3%nat) (E k 4%nat)); intros u Hu; rewrite Rmin_left, Rmax_right in Hu by lra; [apply E_derive; auto; try lia; lra|apply E_continuous; auto; lra]. }
    set (D := E k 3 t - E k 3 (from k)) in *. set (la := D / (t - from k)).
    pose proof (is_RInt_const (from k) t (la * la)) as J3. pose proof (is_RInt_scal _ _ _ (- 2 * la) _ J2) as J4.
    pose proof (is_RInt_plus _ _ _ _ _ _ J1 (is_RInt_plus _ _ _ _ _ _ J4 J3)) as J.
    assert (G : 0 <= 0 + (- 2 * la * D + (t - from k) * (la * la))).
    { refine (is_RInt_ge_0 (fun u => (E k 4 u - la) * (E k 4 u - la)) (from k) t _ (Rlt_le _ _ L) _ _); [|intros u _; exact (Rle_0_sqr (E k 4 u - la))].
      revert J. apply is_RInt_ext. intros u _. unfold plus, scal; cbn. unfold mult; cbn. match goal with |- @eq _ ?a ?b => change (@eq R a b) end; ring. }
    replace (0 + (- 2 * la * D + (t - from k) * (la * la))) with (- (D * D / (t - from k))) in G by (unfold la; field; lra).
    assert (Pz : 0 < / (t - from k)) by (apply Rinv_0_lt_compat; lra). unfold Rdiv in G. assert (D * D <= 0) by nra. assert (D = 0) by nra. unfold D in *. lra.
Qed.
Lemma steady k r : (k < n)%nat -> (r < 3)%nat -> (forall t, from k <= t <= from (S k) -> E k (S r) t = 0) -> E k r (from k) = 0 -> forall t, from k <= t <= from (S k) -> E k r t = 0.
Proof.
    intros Hk Hr Hz H0 t Ht. destruct (Req_dec t (from k)) as [->|Nt]; [exact H0|]. rewrite <- H0. symmetry. apply (eq_is_derive (E k r) (from k) t); [|lra].
    intros u Hu. pose proof (E_derive k r u Hk ltac:(lia) ltac:(lra)) as D. rewrite (Hz u) in D by lra. exact D.
Qed.
Lemma snap_only : snap spans F <= snap spans P -> forall k r t, (k < n)%nat -> (r <= 3)%nat -> from k <= t <= from (S k) -> F k r t = P k r t.
Proof.
    intros Le. rewrite snap_split in Le.
    assert (Zs : forall k, (k < n)%nat -> RInt (fun t => E k 4 t * E k 4 t) (from k) (from (S k)) = 0) by (apply bsum_zero_each; [apply square_nonneg|lra]).
    assert (G : forall k, (k < n)%nat -> forall r, (r <= 3)%nat -> forall t, from k <= t <= from (S k) -> E k r t = 0).
    { induction k as [|k IH]; intros Hk.
      - assert (G0 : forall r, (r <= 3)%nat -> E 0 r (from 0) = 0) by (intros; apply E_first; lia).
        assert (G3 : forall t, from 0 <= t <= from 1 -> E 0 3 t = 0) by (intros t Ht; rewrite (no_snap 0 Hk (Zs 0%nat Hk) t Ht); apply G0; lia).
        assert (G2 := steady 0 2 Hk ltac:(lia) G3 (G0 2%nat ltac:(lia))). assert (G1 := steady 0 1 Hk ltac:(lia) G2 (G0 1%nat ltac:(lia))). assert (Ga := steady 0 0 Hk ltac:(lia) G1 (G0 0%nat ltac:(lia))).
        intros r Hr. destruct r as [|[|[|[|r]]]]; auto; lia.
      - assert (G0 : forall r, (r <= 3)%nat -> E (S k) r (from (S k)) = 0) by (intros r Hr; rewrite <- E_joint by auto; apply IH; [lia|exact Hr|split; [apply from_le; lia|lra]]).
        assert (G3 : forall t, from (S k) <= t <= from (S (S k)) -> E (S k) 3 t = 0) by (intros t Ht; rewrite (no_snap (S k) Hk (Zs (S k) Hk) t Ht); apply G0; lia).
        assert (G2 := steady (S k) 2 Hk ltac:(lia) G3 (G0 2%nat ltac:(lia))). assert (G1 := steady (S k) 1 Hk ltac:(lia) G2 (G0 1%nat ltac:(lia))). assert (Ga := steady (S k) 0 Hk ltac:(lia) G1 (G0 0%nat ltac:(lia))).
        intros r Hr. destruct r as [|[|[|[|r]]]]; auto; lia. }
    intros k r t Hk Hr Ht. pose proof (G k Hk r Hr t Ht) as Z. unfold E in Z. lra.
Qed.
End Axis.

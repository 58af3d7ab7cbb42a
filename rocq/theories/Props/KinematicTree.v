(** C144-C146: kinematic trees, forward kinematics and the geometric Jacobian. *)
From Coq Require Import ZArith List Bool Arith Reals Lra Lia.
From Coquelicot Require Import Coquelicot.
From Verif Require Import Base.Scalar Base.RNum Base.Lists Base.Series Model.Errors Model.Vector Model.Matrix Model.Lu Model.Quaternion Model.Lie Model.Drive Model.KinematicTree
  Spec.Matrix Spec.Rotation Spec.Quaternion Spec.Space Spec.KinematicTree Proofs.Matrix Proofs.Quaternion Proofs.Space Proofs.FrameMotion Proofs.KinematicTree Proofs.KinematicMotion Proofs.KinematicJacobian Proofs.KinematicVelocity.
Import ListNotations.
Local Open Scope R_scope.
Local Notation sqrt := R_sqrt.sqrt.
Local Notation cos := Rtrigo_def.cos.
Local Notation sin := Rtrigo_def.sin.

(** ** C144: what trees there are *)
Section AnyScalar.
Context {T : Type} {NT : Num T}.
Implicit Types (t : tree T) (j : joint T).

(** A joint is appended, with its axis brought to length one, exactly when it is acceptable; a refused one leaves the tree as it was. *)
Theorem C144_push mj mc j parent t :
  (acceptable mj mc j parent t /\ push mj mc j parent t = ({| tr_joints := tr_joints t ++ [as_stored j]; tr_parents := tr_parents t ++ [parent] |}, Ok tt)) \/
  (~ acceptable mj mc j parent t /\ exists e, push mj mc j parent t = (t, Err e)).
Proof. apply push_cases. Qed.
Lemma first_step {E} (P : Prop) (b : bool) (e0 e : E) rest : (b = true <-> P) -> first_problem ((P, e0) :: rest) e <-> if b then e = e0 else first_problem rest e.
Proof. intros H. cbn [first_problem]. destruct b; [assert P by (apply H; reflexivity)|assert (~ P) by (intros N; apply H in N; discriminate)]; tauto. Qed.
Lemma first_next {E} (P Q : Prop) (b : bool) (e0 e : E) rest : (b = true <-> P) -> (first_problem rest e <-> Q) -> first_problem ((P, e0) :: rest) e <-> if b then e = e0 else Q.
Proof. intros H G. rewrite (first_step P b e0 e rest H). destruct b; tauto. Qed.
(** The refusal names the first problem there is. *)
Theorem C144_refusal mj mc j parent t e : push mj mc j parent t = (t, Err e) <-> first_problem (problems mj mc j parent t) e.
Proof.
  unfold problems.
  rewrite (first_step _ (Nat.eqb (tree_len t) mj)) by apply Nat.eqb_eq.
  unfold push. destruct (Nat.eqb (tree_len t) mj); [split; [congruence|intros ->; reflexivity]|].
  rewrite (first_step _ (match parent with OnJoint index => Nat.leb (tree_len t) index | World => false end)).
  2: { destruct parent as [|i]; [split; [discriminate|intros (i & H & _); discriminate]|]. rewrite Nat.leb_le. split; [intros H; exists i; auto|intros (i' & H & L); injection H as ->; exact L]. }
  destruct (match parent with OnJoint index => Nat.leb (tree_len t) index | World => false end); [split; [congruence|intros ->; reflexivity]|].
  rewrite (first_step _ (kind_eqb (jt_kind j) Floating && (negb (Nat.eqb (tree_len t) 0) || match parent with World => false | _ => true end))).
  2: { rewrite andb_true_iff, kind_eqb_spec, orb_true_iff, negb_true_iff, Nat.eqb_neq. destruct parent; intuition (try discriminate; try congruence). }
  destruct (kind_eqb (jt_kind j) Floating && (negb (Nat.eqb (tree_len t) 0) || match parent with World => false | _ => true end)); [split; [congruence|intros ->; reflexivity]|].
  rewrite (first_step _ (negb (joint_is_finite j))).
  2: { pose proof (finite_numbers j) as F. destruct (joint_is_finite j); cbn [negb].
       - split; [discriminate|]. intros (x & I & N). rewrite (proj1 F eq_refl x I) in N. discriminate.
       - split; [intros _|reflexivity]. destruct (forallb is_finite (numbers_of j)) eqn:A.
         + exfalso. assert (H : false = true); [|discriminate]. apply F. apply forallb_forall. exact A.
         + destruct (existsb (fun x => negb (is_finite x)) (numbers_of j)) eqn:X.
           * apply existsb_exists in X. destruct X as (x & I & N). exists x. split; [exact I|]. apply negb_true_iff, N.
           * exfalso. assert (forallb is_finite (numbers_of j) = true); [|congruence]. apply forallb_forall. intros x I. destruct (is_finite x) eqn:FX; [reflexivity|].
             assert (Y : existsb (fun x => negb (is_finite x)) (numbers_of j) = true) by (apply existsb_exists; exists x; rewrite FX; auto). congruence. }
  destruct (joint_is_finite j); cbn [negb]; [|split; [congruence|intros ->; reflexivity]].
  etransitivity; [|symmetry; eapply (first_next _ _ (match jt_limits j with Some (lower, upper) => negb (is_finite lower) || negb (is_finite upper) | None => false end)); [|
    eapply (first_next _ _ (match jt_limits j with Some (lower, upper) => Scalar.ltb upper lower | None => false end)); [|
    eapply (first_next _ _ (kind_eqb (jt_kind j) Continuous && match jt_limits j with Some _ => true | None => false end)); [|
    eapply (first_next _ _ (match jt_kind j with Fixed | Floating => false | _ => match try_normalized3 (jt_axis j) with None => true | _ => false end end)); [|
    eapply (first_next _ _ (Nat.ltb mc (config_len t + readings_of j))); [apply Nat.ltb_lt|reflexivity]]]]]].
  2: { destruct (jt_limits j) as [[lo up]|]; [|split; [discriminate|intros (? & ? & H & _); discriminate]]. rewrite orb_true_iff, !negb_true_iff. split; [intros H; exists lo, up; auto|intros (? & ? & H & G); injection H as -> ->; exact G]. }
  2: { destruct (jt_limits j) as [[lo up]|]; [|split; [discriminate|intros (? & ? & H & _); discriminate]]. split; [intros H; exists lo, up; auto|intros (? & ? & H & G); injection H as -> ->; exact G]. }
  2: { rewrite andb_true_iff, kind_eqb_spec. destruct (jt_limits j); intuition congruence. }
  2: { destruct (jt_kind j), (try_normalized3 (jt_axis j)); intuition (try discriminate; auto). }
  cbn [first_problem].
  assert (W : config_width (jt_kind j) = readings_of j) by (unfold readings_of; destruct (jt_kind j); reflexivity).
  destruct (jt_limits j) as [[lo up]|]; [destruct (negb (is_finite lo) || negb (is_finite up)); [cbn [bind]; split; [congruence|intros ->; reflexivity]|];
    destruct (ltb up lo); [cbn [bind]; split; [congruence|intros ->; reflexivity]|]|]; cbn [bind].
  all: destruct (kind_eqb (jt_kind j) Continuous && _); [split; [congruence|intros ->; reflexivity]|].
  all: rewrite <- W; destruct (jt_kind j) eqn:K; cbn [bind ok_or config_width with_axis jt_kind]; rewrite ?K; cbn [config_width];
    try (destruct (try_normalized3 (jt_axis j)); cbn [bind ok_or with_axis jt_kind]; rewrite ?K; cbn [config_width]; [|split; [congruence|intros ->; reflexivity]]);
    (destruct (Nat.ltb mc _); [split; [congruence|intros ->; reflexivity]|split; [discriminate|tauto]]).
Qed.
(** In every tree that can be built there is a parent for each joint and it comes before it, the capacities are kept, and only the first
    joint can float, hung from the world. *)
Theorem C144_built mj mc t : built mj mc t ->
  List.length (tr_parents t) = tree_len t /\ (tree_len t <= mj)%nat /\ (config_len t <= mc)%nat /\
  (forall i p, tree_parent t i = Some (OnJoint p) -> (p < i)%nat) /\
  (forall i j, tree_joint t i = Some j -> jt_kind j = Floating -> i = 0%nat /\ tree_parent t i = Some World).
Proof. intros B. destruct (built_sound mj mc t B) as (A & C & D & E & F). unfold tree_parent, tree_joint. repeat split; eauto; apply (E i j); assumption. Qed.
(** Each joint owns a run of the configuration and a run of the rates, one after another in the order of the joints. *)
Theorem C144_offsets mj mc t : built mj mc t ->
  config_len t = total readings_of (tr_joints t) /\ velocity_len t = total rates_of (tr_joints t) /\
  (forall i, (i < tree_len t)%nat -> config_offset t i = Some (total readings_of (firstn i (tr_joints t))) /\ velocity_offset t i = Some (total rates_of (firstn i (tr_joints t)))) /\
  (forall i, (tree_len t <= i)%nat -> config_offset t i = None /\ velocity_offset t i = None).
Proof.
  intros B. destruct (lens_total mj mc t B) as [A C]. split; [exact A|split; [exact C|split]].
  - intros i I. apply (offsets_total mj mc t i B I).
  - intros i I. unfold config_offset, velocity_offset. rewrite (proj2 (Nat.leb_le _ _) I). auto.
Qed.
Lemma push_all_spec mj mc l : forall t, built mj mc t -> 
  match push_all mj mc l t with
  | Ok t' => built mj mc t' /\ tr_parents t' = tr_parents t ++ map snd l /\ tr_joints t' = tr_joints t ++ map (fun x => as_stored (fst x)) l
  | Err e => exists before j p after t', l = before ++ (j, p) :: after /\ push_all mj mc before t = Ok t' /\ push mj mc j p t' = (t', Err e)
  | Panic => False
  end.
Proof.
  induction l as [|[j p] l IH]; intros t B; cbn [push_all].
  - rewrite !app_nil_r. auto.
  - destruct (push_cases mj mc j p t) as [[A P]|[A (e & P)]]; pose proof P as P'; rewrite P.
    + set (t1 := {| tr_joints := _; tr_parents := _ |}) in *. specialize (IH t1 (built_push mj mc t j p t1 B P')). destruct (push_all mj mc l t1) as [t'|e|].
      * destruct IH as (B' & E1 & E2). rewrite E1, E2. cbn [tr_parents tr_joints t1 map fst snd]. rewrite <- !app_assoc. auto.
      * destruct IH as (b & j' & p' & a & t' & -> & Q & R). exists ((j, p) :: b), j', p', a, t'. split; [reflexivity|]. cbn [push_all]. rewrite P'. auto.
      * exact IH.
    + exists [], j, p, l, t. auto.
Qed.
(** Building from slices pushes them in order: it keeps them all, or reports what the first refused joint is refused for. *)
Theorem C144_try_from mj mc (joints : list (joint T)) parents :
  (List.length joints <> List.length parents -> try_from_joints mj mc joints parents = Err KiJointCountMismatch) /\
  (List.length joints = List.length parents ->
    (exists t, try_from_joints mj mc joints parents = Ok t /\ built mj mc t /\ tr_parents t = parents /\ tr_joints t = map as_stored joints) \/
    (exists k j p t e, nth_error joints k = Some j /\ nth_error parents k = Some p /\ try_from_joints mj mc (firstn k joints) (firstn k parents) = Ok t /\
      push mj mc j p t = (t, Err e) /\ try_from_joints mj mc joints parents = Err e)).
Proof.
  unfold try_from_joints. split.
  - intros N. apply Nat.eqb_neq in N. rewrite N. reflexivity.
  - intros L. rewrite (proj2 (Nat.eqb_eq _ _) L). cbn [negb]. pose proof (push_all_spec mj mc (combine joints parents) tree_new (built_new mj mc)) as H.
    destruct (push_all mj mc (combine joints parents) tree_new) as [t|e|].
    + left. exists t. destruct H as (B & P & J). split; [reflexivity|split; [exact B|]]. cbn [tree_new tr_parents tr_joints app] in P, J. rewrite P, J. clear - L. revert parents L.
      induction joints as [|j js IH]; intros [|p ps] L; try discriminate L; [auto|]. injection L as L. specialize (IH ps L). cbn [combine map fst snd]. destruct IH as [-> ->]. auto.
    + right. destruct H as (b & j & p & a & t & E & Q & R). exists (List.length b), j, p, t, e.
      assert (X : forall joints parents b (a : list (joint T * JointParent)), List.length joints = List.length parents -> combine joints parents = b ++ (j, p) :: a ->
        nth_error joints (List.length b) = Some j /\ nth_error parents (List.length b) = Some p /\ combine (firstn (List.length b) joints) (firstn (List.length b) parents) = b).
      { clear. induction joints as [|x js IH]; intros [|y ps] b a L E; try discriminate L; [destruct b; discriminate|]. destruct b as [|z b]; cbn [combine app List.length nth_error firstn] in *.
        - injection E as -> -> _. auto.
        - injection E as <- E. injection L as L. destruct (IH ps b a L E) as (-> & -> & ->). auto. }
      destruct (X joints parents b a L E) as (NJ & NP & C). split; [exact NJ|split; [exact NP|]]. rewrite !firstn_length, L, Nat.eqb_refl. cbn [negb]. rewrite C. auto.
    + destruct H.
Qed.
(** ** C145: forward kinematics, any scalar *)

(** With one number per reading the answer depends only on whether the readings are finite and a floating joint's quaternion has a direction. *)
Theorem C145_answer mj mc t q : built mj mc t -> List.length q = mc ->
  (~ finite_readings t q -> forward_kinematics mj q t = Err KiNonFinite) /\
  (finite_readings t q -> (exists poses, forward_kinematics mj q t = Ok poses /\ List.length poses = tree_len t) \/
    (has_floating_base t = true /\ place_of q 0 = None /\ forward_kinematics mj q t = Err KiOrientationHasNoDirection)).
Proof.
  intros B L. assert (EQ : finite_readings t q <-> all_readable t q).
  { unfold finite_readings, all_readable, readable. split.
    - intros H i j off J O k K. pose proof (config_fits mj mc t i j off B J O) as F. destruct (built_sound mj mc t B) as (_ & _ & C & _).
      exists (nth (off + k) q zero). split; [apply nth_error_nth'; lia|]. destruct (kind_eqb (jt_kind j) Fixed) eqn:KF; [left; apply kind_eqb_spec, KF|right]. apply (H i j off k J O); [intros E; rewrite E in KF; discriminate|exact K].
    - intros H i j off k J O KF K. destruct (H i j off J O k K) as (x & X & [G|G]); [contradiction|]. rewrite (nth_error_nth _ _ zero X). exact G. }
  rewrite EQ. destruct (forward_cases mj mc t q (built_sound mj mc t B)) as [[N E]|[(RD & (m & j & off & J & O & K & E) & F)|(RD & poses & E & LA & _)]].
  - split; [auto|contradiction].
  - split; [contradiction|]. intros _. right. destruct (built_sound mj mc t B) as (_ & _ & _ & FL & _). destruct (FL m j J K) as [-> _].
    assert (HF : has_floating_base t = true) by (unfold has_floating_base; destruct (tr_joints t) as [|j0 l]; [discriminate|]; injection J as ->; apply kind_eqb_spec, K).
    split; [exact HF|split; [|exact F]]. unfold config_offset in O. destruct (Nat.leb (tree_len t) 0); [discriminate|]. rewrite Nat.ltb_irrefl, andb_false_r in O. injection O as <-.
    unfold joint_motion in E. rewrite K in E. unfold place_of. cbn [seq map Nat.add] in *. destruct q as [|x0 [|x1 [|x2 [|x3 [|x4 [|x5 [|x6 q]]]]]]]; try discriminate E. cbn [nth nth_error] in *. destruct (from_generalized_vectors _ _ _); [discriminate|reflexivity].
  - split; [contradiction|]. intros _. left. exists poses. auto.
Qed.
(** ** C146: the Jacobian's errors, any scalar *)
Theorem C146_errors mj mc t state k frame :
  ((tree_len t <= k)%nat -> geometric_jacobian mj mc state k frame t = Err KiToolIndexOutOfRange) /\
  ((k < tree_len t)%nat -> List.length state <> tree_len t -> geometric_jacobian mj mc state k frame t = Err KiStateShapeMismatch).
Proof.
  unfold geometric_jacobian. split; [intros H; rewrite (proj2 (Nat.leb_le _ _) H); reflexivity|]. intros H N. rewrite (proj2 (Nat.leb_gt _ _) H), (proj2 (Nat.eqb_neq _ _) N). reflexivity.
Qed.
End AnyScalar.

(** ** Over the reals *)

(** An axis a joint moves along or about has length one. *)
Theorem C144_axes mj mc (t : tree R) i j : built mj mc t -> tree_joint t i = Some j -> jt_kind j = Revolute \/ jt_kind j = Prismatic \/ jt_kind j = Continuous -> length (jt_axis j) = 1.
Proof. intros B J K. unfold length. rewrite (built_axes mj mc t B i j J); [apply sqrt_1|]. exact K. Qed.

(** ** C145: the poses *)

(** Every pose is a rigid motion, and joint [i] takes a point of its frame where its own motion, its origin and the frame it hangs from
    take it in turn. *)
Theorem C145_poses mj mc (t : tree R) q : built mj mc t -> List.length q = mc ->
  (forall i j, tree_joint t i = Some j -> unit_se3 (jt_origin j)) ->
  (forall i j at_, tree_joint t i = Some j -> config_offset t i = Some at_ -> has_orientation q at_ j /\ plain_turn q at_ j) ->
  exists poses, forward_kinematics mj q t = Ok poses /\ List.length poses = tree_len t /\
    forall i j at_, tree_joint t i = Some j -> config_offset t i = Some at_ ->
      unit_se3 (nth i poses se3_identity) /\
      (forall p, se3_act (nth i poses se3_identity) p = se3_act (hangs_from t poses i) (se3_act (jt_origin j) (joint_moves q at_ j p))).
Proof.
  intros B L U H. unfold tree_joint in *. destruct (proj1 (forward_R mj mc t q B L)) as (poses & E & LP & P); [intros i j off J O; apply (H i j off J O)|].
  exists poses. split; [exact E|split; [exact LP|]].
  assert (X : forall i, forall j off, nth_error (tr_joints t) i = Some j -> config_offset t i = Some off -> unit_se3 (nth i poses se3_identity)).
  { destruct (built_sound mj mc t B) as (_ & _ & _ & _ & PA). induction i as [i IH] using (well_founded_induction lt_wf). intros j off J O. rewrite (P i j off J O).
    destruct (H i j off J O) as [HO HP]. destruct (local_moves q off j (0, 0, 0) (built_axes mj mc t B i j J) HO HP) as [UL _].
    apply se3_units; [apply se3_units; [|apply (U i j J)]|exact UL]. unfold hangs_from. destruct (nth_error (tr_parents t) i) as [[|p]|] eqn:PI; [apply unit_identity| |apply unit_identity].
    apply PA in PI. pose proof (index_lt t i j J) as I. destruct (nth_error (tr_joints t) p) as [j'|] eqn:J'; [|apply nth_error_None in J'; unfold tree_len in I; lia]. destruct (config_offset_some t p ltac:(lia)) as (off' & O'). apply (IH p PI j' off' J' O'). }
  intros i j off J O. split; [apply (X i j off J O)|]. intros p. rewrite (P i j off J O), !se3_act_compose. destruct (H i j off J O) as [HO HP]. rewrite (proj2 (local_moves q off j p (built_axes mj mc t B i j J) HO HP)). reflexivity.
Qed.
(** A floating joint whose quaternion is no longer than a machine epsilon has no orientation to go by. *)
Theorem C145_no_orientation mj mc (t : tree R) q i j at_ : built mj mc t -> List.length q = mc -> tree_joint t i = Some j -> config_offset t i = Some at_ -> ~ has_orientation q at_ j ->
  forward_kinematics mj q t = Err KiOrientationHasNoDirection.
Proof. intros B L J O N. apply (forward_R mj mc t q B L). intros H. apply N, (H i j at_ J O). Qed.
(** A joint whose frame does not hang, however remotely, from a joint does not move with it. *)
Theorem C145_untouched mj mc (t : tree R) q q' poses poses' k : built mj mc t -> List.length q = mc -> List.length q' = mc ->
  forward_kinematics mj q t = Ok poses -> forward_kinematics mj q' t = Ok poses' -> (k < tree_len t)%nat ->
  (forall i j at_, carried_by t k i -> tree_joint t i = Some j -> config_offset t i = Some at_ -> forall n, (n < readings_of j)%nat -> nth (at_ + n) q 0 = nth (at_ + n) q' 0) ->
  nth k poses se3_identity = nth k poses' se3_identity.
Proof.
  intros B L L' E E' K H. unfold tree_joint in H.
  assert (G : forall q poses, List.length q = mc -> forward_kinematics mj q t = Ok poses -> placed t q poses).
  { clear - B. intros q poses L E. destruct (forward_R mj mc t q B L) as [F N]. destruct (forward_cases mj mc t q (built_sound mj mc t B)) as [[_ X]|[(_ & _ & X)|(_ & p & X & LA)]]; rewrite E in X; try discriminate. injection X as <-.
    apply (laid_placed mj mc); auto. intros i j off J O. destruct LA as [_ LA]. destruct (LA i j off ltac:(lia) J O) as (l & M & _). intros KF.
    destruct (Rlt_dec (1 / IZR (2^52)) (quat_norm (floating_quaternion q off))) as [Y|Y]; [exact Y|]. rewrite (proj2 (motion_at mj mc t q i j off B L J O)) in M; [discriminate|]. intros Z. apply Y, Z, KF. }
  destruct (G q poses L E) as [_ P], (G q' poses' L' E') as [_ P']. destruct (built_sound mj mc t B) as (_ & _ & _ & _ & PA). revert K H.
  induction k as [k IH] using (well_founded_induction lt_wf). intros K H.
  destruct (nth_error (tr_joints t) k) as [j|] eqn:J; [|apply nth_error_None in J; unfold tree_len in K; lia]. destruct (config_offset_some t k K) as (off & O). rewrite (P k j off J O), (P' k j off J O).
  assert (HF : hangs_from t poses k = hangs_from t poses' k).
  { unfold hangs_from. destruct (nth_error (tr_parents t) k) as [[|p]|] eqn:PK; try reflexivity. pose proof (PA k p PK) as LT. apply (IH p LT ltac:(lia)). intros i j' at_ C. apply H. apply (carried_up t k p i PK C). }
  rewrite HF. f_equal. pose proof (H k j off (carried_self t k) J O) as N. unfold local_motion, readings_of, floating_quaternion in *. destruct (jt_kind j).
  1-3: specialize (N 0%nat ltac:(lia)); rewrite Nat.add_0_r in N; rewrite N; reflexivity.
  - reflexivity.
  - rewrite ?(N 0%nat), ?(N 1%nat), ?(N 2%nat), ?(N 3%nat), ?(N 4%nat), ?(N 5%nat), ?(N 6%nat) by lia. reflexivity.
Qed.

(** ** C146: the Jacobian *)
Lemma drive_both g cols : (forall u v, g (together u v) = together (g u) (g v)) -> (forall k u, g (multiple k u) = multiple k (g u)) -> forall from rates, drive (map (both g) cols) from rates = both g (drive cols from rates).
Proof.
  intros A M. assert (Z : g (0, 0, 0) = (0, 0, 0)) by (replace (0, 0, 0) with (multiple 0 (0, 0, 0)) by flat; rewrite M; destruct (g (0, 0, 0)) as [[a b] c]; flat).
  induction cols as [|[l a] cols IH]; intros from rates; cbn [map drive]; [unfold both; cbn [fst snd]; rewrite Z; reflexivity|]. unfold both at 1. cbn [drive fst snd]. rewrite IH. unfold both. cbn [fst snd]. rewrite !A, !M. reflexivity.
Qed.
Lemma adds_both g (t : tree R) state rates y i : (forall u v, g (together u v) = together (g u) (g v)) -> (forall k u, g (multiple k u) = multiple k (g u)) ->
  adds t state rates g y i = both g (adds t state rates (fun p => p) y i).
Proof.
  intros A M. assert (Z : g (0, 0, 0) = (0, 0, 0)) by (replace (0, 0, 0) with (multiple 0 (0, 0, 0)) by flat; rewrite M; destruct (g (0, 0, 0)) as [[a b] c]; flat).
  unfold adds. destruct (nth_error _ _); [|unfold both; cbn [fst snd]; rewrite Z; reflexivity]. destruct (velocity_offset t i); [|unfold both; cbn [fst snd]; rewrite Z; reflexivity].
  rewrite drive_both by assumption. f_equal. rewrite drive_both by reflexivity. destruct (drive _ _ _); reflexivity.
Qed.
Lemma pair_sum_both g l : (forall u v, g (together u v) = together (g u) (g v)) -> g (0, 0, 0) = (0, 0, 0) -> pair_sum (map (both g) l) = both g (pair_sum l).
Proof. intros A Z. induction l as [|d l IH]; cbn [map pair_sum fold_right]; [unfold both; cbn [fst snd]; rewrite Z; reflexivity|]. fold (pair_sum l) (pair_sum (map (both g) l)). rewrite IH. unfold both. cbn [fst snd]. rewrite !A. reflexivity. Qed.

(** The Jacobian times the rates is the velocity of the tool: along every motion whose readings change at those rates, the point at the
    tool's origin and the whole frame move as the product says, in the world's axes or in the tool's own.  A floating joint's origin is
    taken to be unturned. *)
Theorem C146_velocity mj mc (t : tree R) (q : R -> list R) t0 rates k : built mj mc t -> (forall s, List.length (q s) = mc) -> (k < tree_len t)%nat ->
  (forall i j, tree_joint t i = Some j -> unit_se3 (jt_origin j)) ->
  (forall i j, tree_joint t i = Some j -> jt_kind j = Floating -> forall p, transform_point (se3_rotation (jt_origin j)) p = p) ->
  (forall i j at_ from, tree_joint t i = Some j -> config_offset t i = Some at_ -> velocity_offset t i = Some from ->
    has_orientation (q t0) at_ j /\ steady_turn (q t0) at_ j /\ reads_at_rates q t0 rates at_ from j) ->
  exists v w, frame_velocity (fun s => frame_of mj t (q s) k) t0 v w /\
    (exists J, geometric_jacobian_at mj mc (q t0) k WorldAxes t = Ok J /\ kj_columns J = velocity_len t /\ velocity_of (tool_twist mc J rates) = (v, w)) /\
    (exists J, geometric_jacobian_at mj mc (q t0) k BodyAxes t = Ok J /\ kj_columns J = velocity_len t /\
      let axes := se3_rotation (frame_of mj t (q t0) k) in let seen := velocity_of (tool_twist mc J rates) in transform_point axes (fst seen) = v /\ transform_point axes (snd seen) = w).
Proof.
  intros B L K U FO RD. unfold tree_joint in *. pose proof (frames_moving mj mc t B q t0 rates L U FO RD k K) as M. cbv zeta in M.
  destruct (proj1 (forward_R mj mc t (q t0) B (L t0)) (oriented_now t q t0 rates RD)) as (poses & E & LP & P).
  assert (S0 : state0 mj t q t0 = poses) by (unfold state0; rewrite E; reflexivity).
  assert (FK : frame_of mj t (q t0) k = nth k poses se3_identity) by (unfold frame_of; rewrite E; reflexivity).
  unfold geometric_jacobian_at. rewrite E. cbn [bind]. rewrite FK in *. unfold swept in M. rewrite S0 in M. set (y := se3_translation (nth k poses se3_identity)) in *.
  set (vw := pair_sum (map (adds t poses rates (fun p => p) y) (chain t mj k))) in *.
  exists (fst vw), (snd vw). split; [apply moving_frame, M|]. split.
  - destruct (jacobian_spec mj mc t poses k WorldAxes B LP K) as (J & EJ & C & _ & V). exists J. split; [exact EJ|split; [exact C|]]. rewrite V. cbv zeta. fold y. rewrite <- surjective_pairing. reflexivity.
  - destruct (jacobian_spec mj mc t poses k BodyAxes B LP K) as (J & EJ & C & _ & V). exists J. split; [exact EJ|split; [exact C|]]. rewrite V. cbv zeta. fold y.
    set (r := se3_rotation (nth k poses se3_identity)). change (in_frame BodyAxes (so3_inverse r)) with (fun p : point => transform_point (conjugate r) p).
    assert (UR : unit_quaternion r) by (destruct M as [UM _]; cbv beta in UM; rewrite FK in UM; exact UM).
    rewrite (map_ext (adds t poses rates (fun p => transform_point (conjugate r) p) y) (fun i => both (fun p => transform_point (conjugate r) p) (adds t poses rates (fun p => p) y i))).
    2: { intros i. apply adds_both; intros; [apply transform_together|apply transform_multiple']. }
    rewrite <- (map_map (adds t poses rates (fun p => p) y) (both (fun p => transform_point (conjugate r) p))), pair_sum_both; [|intros; apply transform_together|apply transform_zero]. fold vw. unfold both. cbn [fst snd].
    assert (BK : forall p, transform_point r (transform_point (conjugate r) p) = p).
    { intros p. rewrite <- transform_mul, (proj1 (conjugate_inverse r UR)). apply transform_identity. }
    rewrite !BK. auto.
Qed.
Lemma drive_rates cols : forall from rates rates', (forall n, (n < List.length cols)%nat -> nth (from + n) rates 0 = nth (from + n) rates' 0) -> drive cols from rates = drive cols from rates'.
Proof.
  induction cols as [|[l a] cols IH]; intros from rates rates' H; [reflexivity|]. cbn [drive]. pose proof (H 0%nat ltac:(cbn; lia)) as H0. rewrite Nat.add_0_r in H0. rewrite H0, (IH (Datatypes.S from) rates rates'); [reflexivity|].
  intros n N. specialize (H (Datatypes.S n) ltac:(cbn; lia)). rewrite Nat.add_succ_r in H. exact H.
Qed.
(** Only the rates of the joints that carry the tool matter, whatever the poses. *)
Theorem C146_off_chain mj mc (t : tree R) state k frame J rates rates' : built mj mc t -> geometric_jacobian mj mc state k frame t = Ok J ->
  (forall i j from n, carried_by t k i -> tree_joint t i = Some j -> velocity_offset t i = Some from -> (n < rates_of j)%nat -> nth (from + n) rates 0 = nth (from + n) rates' 0) ->
  velocity_of (tool_twist mc J rates) = velocity_of (tool_twist mc J rates').
Proof.
  intros B E H. assert (K : (k < tree_len t)%nat) by (destruct (Nat.lt_ge_cases k (tree_len t)) as [X|X]; [exact X|]; rewrite (proj1 (C146_errors mj mc t state k frame) X) in E; discriminate).
  assert (L : List.length state = tree_len t) by (destruct (Nat.eq_dec (List.length state) (tree_len t)) as [X|X]; [exact X|]; rewrite (proj2 (C146_errors mj mc t state k frame) K X) in E; discriminate).
  destruct (jacobian_spec mj mc t state k frame B L K) as (J' & E' & _ & _ & V). rewrite E in E'. injection E' as <-. rewrite !V. f_equal. apply map_ext_in. intros i I. apply chain_carried in I. unfold adds. 
  destruct (nth_error (tr_joints t) i) as [j|] eqn:JI; [|reflexivity]. destruct (velocity_offset t i) as [from|] eqn:O; [|reflexivity]. apply drive_rates. intros n N. rewrite map_length, columns_count in N.
  apply (H i j from n I JI O). unfold rates_of. destruct (jt_kind j); lia.
Qed.
Definition one_rate (mc c : nat) : list R := from_fn mc (fun k => if Nat.eqb k c then 1 else 0).
Lemma nth_one_rate mc c k : (k < mc)%nat -> nth k (one_rate mc c) 0 = if Nat.eqb k c then 1 else 0.
Proof. intros H. unfold one_rate. apply nth_from_fn, H. Qed.
Lemma six_twist mc J rates row : (row < 6)%nat -> six (velocity_of (tool_twist mc J rates)) row = bsum mc (fun c => mget (kj_entries J) row c * nth c rates 0).
Proof.
  intros H. unfold velocity_of, tool_twist, twist_from_vector. cbn [linear angular fst snd]. rewrite !vget_mat_vec by lia. do 6 (destruct row as [|row]; [reflexivity|]). lia.
Qed.
Lemma bsum_parts f m n : (m <= n)%nat -> bsum n f = bsum m f + bsum (n - m) (fun k => f (m + k)%nat).
Proof.
  intros H. replace n with (m + (n - m))%nat at 1 by lia. generalize (n - m)%nat. intros d. induction d as [|d IH]; [rewrite Nat.add_0_r; cbn; ring|]. rewrite Nat.add_succ_r. cbn [bsum]. rewrite IH. ring.
Qed.
(** There is a column for each rate and no more, and the product is the columns weighted with the rates. *)
Theorem C146_columns mj mc (t : tree R) state k frame J : built mj mc t -> geometric_jacobian mj mc state k frame t = Ok J ->
  kj_columns J = velocity_len t /\ kj_frame J = frame /\ (forall c, (velocity_len t <= c)%nat -> jacobian_column J c = None) /\
  exists column, (forall c, (c < velocity_len t)%nat -> jacobian_column J c = Some (column c)) /\
    forall rates row, (row < 6)%nat -> six (velocity_of (tool_twist mc J rates)) row = bsum (velocity_len t) (fun c => nth c rates 0 * six (velocity_of (column c)) row).
Proof.
  intros B E. assert (K : (k < tree_len t)%nat) by (destruct (Nat.lt_ge_cases k (tree_len t)) as [X|X]; [exact X|]; rewrite (proj1 (C146_errors mj mc t state k frame) X) in E; discriminate).
  assert (L : List.length state = tree_len t) by (destruct (Nat.eq_dec (List.length state) (tree_len t)) as [X|X]; [exact X|]; rewrite (proj2 (C146_errors mj mc t state k frame) K X) in E; discriminate).
  destruct (jacobian_spec mj mc t state k frame B L K) as (J' & E' & C & F & V). rewrite E in E'. injection E' as <-. split; [exact C|split; [exact F|split]].
  { intros c H. unfold jacobian_column. rewrite C, (proj2 (Nat.leb_le _ _) H). reflexivity. }
  exists (fun c => match jacobian_column J c with Some w => w | None => twist_from_vector ((0, 0, 0), (0, 0, 0)) end). unfold jacobian_column. rewrite C.
  split; [intros c H; rewrite (proj2 (Nat.leb_gt _ _) H); reflexivity|]. intros rates row H.
  assert (Z : forall c, (velocity_len t <= c < mc)%nat -> mget (kj_entries J) row c = 0).
  { intros c [H1 H2]. pose proof (C146_off_chain mj mc t state k frame J (one_rate mc c) [] B E) as X.
    assert (Y : velocity_of (tool_twist mc J (one_rate mc c)) = velocity_of (tool_twist mc J [])).
    { apply X. intros i j from n _ JI O N. pose proof (velocity_fits mj mc t i j from B JI O) as VF. rewrite nth_one_rate by lia. rewrite (proj2 (Nat.eqb_neq (from + n) c)) by lia. destruct (from + n)%nat; reflexivity. }
    apply (f_equal (fun v => six v row)) in Y. rewrite !six_twist in Y by exact H.
    rewrite (bsum_ext mc _ (fun m => if Nat.eqb m c then mget (kj_entries J) row c else 0)) in Y.
    2: { intros m M. rewrite nth_one_rate by exact M. destruct (Nat.eqb_spec m c) as [->|]; ring. }
    rewrite (bsum_delta mc c _ H2) in Y. rewrite Y. transitivity (bsum mc (fun _ => 0)); [apply bsum_ext; intros m _; destruct m; cbn [nth]; ring|apply bsum_0]. }
  rewrite six_twist by exact H. pose proof (velocity_len_le mj mc t B) as VL.
  rewrite (bsum_parts _ (velocity_len t) mc VL). rewrite (bsum_ext (mc - velocity_len t) _ (fun _ => 0)), bsum_0, Rplus_0_r.
  2: { intros m M. rewrite Z by lia. ring. }
  apply bsum_ext. intros c HC. rewrite (proj2 (Nat.leb_gt _ _) HC), Rmult_comm. f_equal. unfold velocity_of, twist_from_vector. cbn [linear angular fst snd]. do 6 (destruct row as [|row]; [reflexivity|]). lia.
Qed.

(** The tree that is not built from an unturned floating origin: a floating joint whose origin is half a turn about the vertical, sliding
    along its own first axis.  Its frame moves backwards; the Jacobian says forwards. *)
Definition turned_base : tree R := {| tr_joints := [joint_floating (SE3 (Quat 0 0 0 1) (0, 0, 0))]; tr_parents := [World] |}.
Definition sliding (s : R) : list R := [s; 0; 0; 1; 0; 0; 0].
Lemma turned_base_built : built 1 7 turned_base.
Proof.
  refine (built_push 1 7 tree_new (joint_floating (SE3 (Quat 0 0 0 1) (0, 0, 0))) World turned_base (built_new 1 7) _). reflexivity.
Qed.
Lemma one_orientation : 1 / IZR (2^52) < quat_norm (Quat 1 0 0 0).
Proof.
  unfold quat_norm, quat_norm_squared. cbn [qw qx qy qz]. rnum. replace (1 * 1 + 0 * 0 + 0 * 0 + 0 * 0) with 1 by ring. rewrite sqrt_1. apply Rmult_lt_reg_r with (IZR (2^52)); [apply IZR_lt; reflexivity|]. unfold Rdiv. rewrite Rmult_assoc, Rinv_l, Rmult_1_r, Rmult_1_l by (apply not_0_IZR; discriminate). apply IZR_lt. reflexivity.
Qed.
Lemma one_norm : quat_norm (Quat 1 0 0 0) = 1.
Proof. unfold quat_norm, quat_norm_squared. cbn [qw qx qy qz]. rnum. replace (1 * 1 + 0 * 0 + 0 * 0 + 0 * 0) with 1 by ring. apply sqrt_1. Qed.
Theorem C146_floating_origin_refuted : exists mj mc (t : tree R) (q : R -> list R) t0 rates k, built mj mc t /\ (forall s, List.length (q s) = mc) /\ (k < tree_len t)%nat /\
  (forall i j, tree_joint t i = Some j -> unit_se3 (jt_origin j)) /\
  (forall i j at_ from, tree_joint t i = Some j -> config_offset t i = Some at_ -> velocity_offset t i = Some from ->
    has_orientation (q t0) at_ j /\ steady_turn (q t0) at_ j /\ reads_at_rates q t0 rates at_ from j) /\
  exists J, geometric_jacobian_at mj mc (q t0) k WorldAxes t = Ok J /\ velocity_of (tool_twist mc J rates) = ((1, 0, 0), (0, 0, 0)) /\
    frame_velocity (fun s => frame_of mj t (q s) k) t0 (-1, 0, 0) (0, 0, 0) /\ ~ frame_velocity (fun s => frame_of mj t (q s) k) t0 (1, 0, 0) (0, 0, 0).
Proof.
  exists 1%nat, 7%nat, turned_base, sliding, 0, [1; 0; 0; 0; 0; 0; 0], 0%nat. split; [apply turned_base_built|]. split; [reflexivity|]. split; [cbn; lia|].
  assert (U : forall i j, tree_joint turned_base i = Some j -> unit_se3 (jt_origin j)).
  { intros [|[|i]] j H; try discriminate H. injection H as <-. unfold unit_se3, unit_quaternion. cbn. ring. }
  split; [exact U|].
  assert (HOR : forall s i j at_, tree_joint turned_base i = Some j -> config_offset turned_base i = Some at_ -> has_orientation (sliding s) at_ j).
  { intros s [|[|i]] j at_ H O; try discriminate H. injection H as <-. injection O as <-. intros _. exact one_orientation. }
  split.
  { intros [|[|i]] j at_ from H O F; try discriminate H. pose proof (HOR 0 0%nat j at_ H O) as HO. split; [exact HO|]. injection H as <-. injection O as <-. injection F as <-. split; [exact I|].
    unfold reads_at_rates. cbn [jt_kind joint_floating joint_from_kind]. split.
    - intros [|[|[|n]]] N; [apply (is_derive_id (K := R_AbsRing))|exact (dconst 0 0)|exact (dconst 0 0)|lia].
    - intros n N. eapply dto; [destruct n as [|[|[|[|n]]]]; [apply (dconst 1)|apply (dconst 0)|apply (dconst 0)|apply (dconst 0)|lia]|].
      destruct n as [|[|[|[|n]]]]; try lia; cbn; rnum; lra. }
  assert (FR : forall s, exists poses, forward_kinematics 1 (sliding s) turned_base = Ok poses /\ List.length poses = 1%nat /\ nth 0 poses se3_identity = se3_compose (se3_compose se3_identity (SE3 (Quat 0 0 0 1) (0, 0, 0))) (float_motion (s, 0, 0) (Quat 1 0 0 0))).
  { intros s. destruct (proj1 (forward_R 1 7 turned_base (sliding s) turned_base_built eq_refl)) as (poses & E & LP & P); [intros i j off J O; apply (HOR s i j off J O)|].
    exists poses. split; [exact E|split; [exact LP|]]. rewrite (P 0%nat _ 0%nat eq_refl eq_refl). reflexivity. }
  assert (ACT : forall s p, se3_act (frame_of 1 turned_base (sliding s) 0) p = together (- s, 0, 0) (transform_point (Quat 0 0 0 1) p)).
  { intros s p. unfold frame_of. destruct (FR s) as (poses & -> & _ & ->). rewrite !se3_act_compose. unfold float_motion. rewrite one_norm. destruct p as [[a b] c].
    cbv -[Rplus Rminus Rmult Ropp Rinv Rdiv R0 R1 IZR]. apply f_equal2; [apply f_equal2|]; field. }
  destruct (FR 0) as (poses & E & LP & P).
  destruct (jacobian_spec 1 7 turned_base poses 0 WorldAxes turned_base_built LP ltac:(cbn; lia)) as (J & EJ & _ & _ & V). exists J.
  unfold geometric_jacobian_at. rewrite E. cbn [bind]. split; [exact EJ|]. split; [|].
  { rewrite V. cbv zeta. cbn [chain nth_error tr_parents turned_base map]. unfold adds. cbn [nth_error tr_joints turned_base velocity_offset tree_len List.length Nat.leb has_floating_base Nat.ltb jt_kind joint_floating joint_from_kind kind_eqb andb].
    rewrite columns_R. cbn [jt_kind joint_floating joint_from_kind map nth app drive fst snd both in_frame]. set (d1 := transform_point _ (1, 0, 0)). set (d2 := transform_point _ (0, 1, 0)). set (d3 := transform_point _ (0, 0, 1)). set (y := se3_translation _). clearbody d1 d2 d3 y.
    destruct d1 as [[? ?] ?], d2 as [[? ?] ?], d3 as [[? ?] ?], y as [[? ?] ?]. cbn [pair_sum fold_right fst snd]. apply pair_eq; flat. }
  assert (FV : frame_velocity (fun s => frame_of 1 turned_base (sliding s) 0) 0 (-1, 0, 0) (0, 0, 0)).
  { intros p i I. apply (is_derive_ext (fun s => coordinate (together (- s, 0, 0) (transform_point (Quat 0 0 0 1) p)) i)); [intros s; rewrite ACT; reflexivity|].
    set (w := transform_point (se3_rotation (frame_of 1 turned_base (sliding 0) 0)) p). clearbody w. destruct w as [[w1 w2] w3], (transform_point (Quat 0 0 0 1) p) as [[a b] c].
    destruct i as [|[|[|i]]]; [| | |lia]; cbn [together outer coordinate nth]; auto_derive; auto; ring. }
  split; [exact FV|]. intros N. pose proof (FV (0, 0, 0) 0%nat ltac:(lia)) as D1. pose proof (N (0, 0, 0) 0%nat ltac:(lia)) as D2. pose proof (is_derive_unique _ _ _ D1) as E1. pose proof (is_derive_unique _ _ _ D2) as E2. pose proof (eq_trans (eq_sym E1) E2) as E3. clear E1 E2. rename E3 into E2.
  rewrite transform_zero in E2. cbn in E2. lra.
Qed.

(** ** A concrete case: a floating base carrying an arm that turns about a point beside it, its axis given with length two *)
Definition arm : joint R := {| jt_kind := Revolute; jt_axis := (0, 0, 2); jt_anchor := (0, 1, 0); jt_origin := SE3 quat_identity (1, 0, 0); jt_zero_offset := 0; jt_limits := Some (-3, 3);
  jt_armature := 0; jt_damping := 0; jt_friction_loss := 0 |}.
Definition carried_arm : tree R := {| tr_joints := [joint_floating se3_identity; with_axis (0, 0, 1) arm]; tr_parents := [World; OnJoint 0] |}.
Definition both_moving (s : R) : list R := [s; 0; 0; 1; 0; 0; 0; s].
Definition both_rates : list R := [1; 0; 0; 0; 0; 0; 1; 0].
Lemma arm_axis : try_normalized3 (jt_axis arm) = Some (0, 0, 1).
Proof.
  rewrite try_normalized3_R. assert (E : length (jt_axis arm) = 2) by (unfold length, inner, arm; cbn [jt_axis]; replace (0 * 0 + 0 * 0 + 2 * 2) with (2 * 2) by ring; apply sqrt_square; lra). rewrite E. destruct (Req_EM_T 2 0); [lra|]. f_equal. unfold arm, multiple. cbn [jt_axis]. apply f_equal2; [apply f_equal2|]; field.
Qed.
Example C144_example : try_from_joints 2 8 [joint_floating se3_identity; arm] [World; OnJoint 0] = Ok carried_arm /\ built 2 8 carried_arm /\
  config_offset carried_arm 1 = Some 7%nat /\ velocity_offset carried_arm 1 = Some 6%nat /\
  push 2 8 arm (OnJoint 0) carried_arm = (carried_arm, Err KiCapacityExceeded) /\ push 3 8 arm (OnJoint 0) carried_arm = (carried_arm, Err KiConfigurationCapacityExceeded) /\
  push 3 9 arm (OnJoint 2) carried_arm = (carried_arm, Err KiParentOutOfOrder).
Proof.
  assert (LM : ltb (T := R) 3 (-3) = false) by (apply Rltb_false; lra).
  assert (P : forall mj mc p t, tree_len t <> mj -> match p with OnJoint i => (i < tree_len t)%nat | World => True end -> (config_len t + 1 <= mc)%nat -> push mj mc arm p t = ({| tr_joints := tr_joints t ++ [with_axis (0, 0, 1) arm]; tr_parents := tr_parents t ++ [p] |}, Ok tt)).
  { intros mj mc p t N PP C. destruct (C144_push mj mc arm p t) as [[_ E]|[A _]].
    - rewrite E. unfold as_stored. cbn [jt_kind arm]. change (try_normalized3 (0, 0, 2)) with (try_normalized3 (jt_axis arm)). rewrite arm_axis. reflexivity.
    - exfalso. apply A. split; [exact N|]. split; [intros i ->; exact PP|]. split; [discriminate|]. split; [reflexivity|]. split; [intros lo up H; injection H as <- <-; repeat split; try reflexivity; [exact LM|discriminate]|]. split; [intros _; rewrite arm_axis; discriminate|exact C]. }
  assert (P0 : push 2 8 (joint_floating se3_identity) World tree_new = ({| tr_joints := [joint_floating se3_identity]; tr_parents := [World] |}, Ok tt : Res unit KinematicsError)) by reflexivity.
  assert (P1 := P 2%nat 8%nat (OnJoint 0) {| tr_joints := [joint_floating se3_identity]; tr_parents := [World] |} ltac:(discriminate) ltac:(cbn; lia) ltac:(cbn; lia)). cbn [tr_joints tr_parents app] in P1. fold carried_arm in P1.
  split; [unfold try_from_joints; cbn [List.length Nat.eqb negb combine push_all]; rewrite P0, P1; reflexivity|]. split; [exact (built_push 2 8 _ _ _ _ (built_push 2 8 _ _ _ _ (built_new 2 8) P0) P1)|].
  split; [reflexivity|split; [reflexivity|split; [reflexivity|split; [|reflexivity]]]].
  apply C144_refusal. unfold problems. cbn [first_problem]. right. split; [discriminate|]. right. split; [intros (i & H & L); injection H as <-; cbn in L; lia|]. right. split; [intros [H _]; discriminate|]. right. split; [intros (x & _ & H); discriminate|].
  right. split; [intros (lo & up & H & [G|G]); discriminate|]. right. split; [intros (lo & up & H & G); injection H as <- <-; exact (eq_true_false_abs _ G LM)|]. right. split; [intros [H _]; discriminate|]. right. split; [intros [_ H]; rewrite arm_axis in H; discriminate|]. left. split; [cbn; lia|reflexivity].
Qed.
Lemma carried_arm_readings i j at_ from : tree_joint carried_arm i = Some j -> config_offset carried_arm i = Some at_ -> velocity_offset carried_arm i = Some from ->
  has_orientation (both_moving 0) at_ j /\ steady_turn (both_moving 0) at_ j /\ reads_at_rates both_moving 0 both_rates at_ from j.
Proof.
  destruct i as [|[|[|i]]]; intros H O F; try discriminate H; injection H as <-; injection O as <-; injection F as <-.
  - split; [intros _; exact one_orientation|]. split; [exact I|]. unfold reads_at_rates. cbn [jt_kind joint_floating joint_from_kind]. split.
    + intros [|[|[|n]]] N; [apply (is_derive_id (K := R_AbsRing))|exact (dconst 0 0)|exact (dconst 0 0)|lia].
    + intros n N. eapply dto; [destruct n as [|[|[|[|n]]]]; [apply (dconst 1)|apply (dconst 0)|apply (dconst 0)|apply (dconst 0)|lia]|].
      destruct n as [|[|[|[|n]]]]; try lia; cbn; rnum; lra.
  - split; [discriminate|]. split; [left; reflexivity|]. cbn. apply (is_derive_id (K := R_AbsRing)).
Qed.
Lemma carried_arm_origins i j : tree_joint carried_arm i = Some j -> unit_se3 (jt_origin j) /\ forall p, transform_point (se3_rotation (jt_origin j)) p = p.
Proof. destruct i as [|[|[|i]]]; intros H; try discriminate H; injection H as <-; (split; [apply unit_identity|apply transform_identity]). Qed.
(** The base slides at one metre per second while the arm turns at one radian per second: its frame slides at two. *)
Example C145_example : exists poses, forward_kinematics 2 (both_moving 0) carried_arm = Ok poses /\ se3_act (nth 1 poses se3_identity) (0, 0, 0) = (1, 0, 0).
Proof.
  destruct C144_example as (_ & B & _).
  destruct (C145_poses 2 8 carried_arm (both_moving 0) B eq_refl (fun i j H => proj1 (carried_arm_origins i j H))) as (poses & E & L & P).
  { intros i j at_ J O. destruct (velocity_offset_some carried_arm i (index_lt carried_arm i j J)) as (from & F). destruct (carried_arm_readings i j at_ from J O F) as (HO & ST & _). split; [exact HO|]. unfold steady_turn, plain_turn in *. destruct (jt_kind j); auto; (destruct ST; [left; assumption|right; lra]). }
  exists poses. split; [exact E|]. rewrite (proj2 (P 1%nat _ 7%nat eq_refl eq_refl)). unfold hangs_from. cbn [nth_error tr_parents carried_arm]. rewrite (proj2 (P 0%nat _ 0%nat eq_refl eq_refl)). unfold hangs_from. cbn [nth_error tr_parents carried_arm].
  unfold joint_moves. cbn [jt_kind with_axis arm joint_floating joint_from_kind jt_axis jt_anchor jt_zero_offset both_moving nth Nat.add]. rewrite one_norm, Rminus_0_r. unfold turned. rewrite cos_0, sin_0.
  assert (QI : quat_scale (Quat 1 0 0 0) (/ 1) = quat_identity) by (unfold quat_scale, quat_identity; cbn [qw qx qy qz]; rnum; apply f_equal4; field). rewrite QI. unfold se3_act, so3_act, so3_identity. cbn [se3_rotation se3_translation se3_identity jt_origin with_axis arm joint_floating joint_from_kind so3_identity]. rewrite !transform_identity, !add3_R. unfold zeros3. rnum. flat.
Qed.
Example C146_example : exists J, geometric_jacobian_at 2 8 (both_moving 0) 1 WorldAxes carried_arm = Ok J /\ velocity_of (tool_twist 8 J both_rates) = ((2, 0, 0), (0, 0, 1)).
Proof.
  destruct C144_example as (_ & B & _).
  destruct (C146_velocity 2 8 carried_arm both_moving 0 both_rates 1 B (fun _ => eq_refl) ltac:(cbn; lia) (fun i j H => proj1 (carried_arm_origins i j H)) (fun i j H _ => proj2 (carried_arm_origins i j H)) carried_arm_readings) as (v & w & _ & (J & E & _ & V) & _).
  exists J. split; [exact E|]. unfold geometric_jacobian_at in E.
  destruct (proj1 (forward_R 2 8 carried_arm (both_moving 0) B eq_refl)) as (poses & EP & LP & P).
  { intros i j off JI O. destruct (velocity_offset_some carried_arm i (index_lt carried_arm i j JI)) as (from & F). apply (carried_arm_readings i j off from JI O F). }
  rewrite EP in E. cbn [bind] in E. destruct (jacobian_spec 2 8 carried_arm poses 1 WorldAxes B LP ltac:(cbn; lia)) as (J' & E' & _ & _ & V'). rewrite E in E'. injection E' as <-. rewrite V'. cbv zeta.
  assert (F0 : nth 0 poses se3_identity = SE3 quat_identity (0, 0, 0)).
  { rewrite (P 0%nat _ 0%nat eq_refl eq_refl). unfold hangs_from. cbn [nth_error tr_parents carried_arm jt_origin joint_floating joint_from_kind]. rewrite !(proj1 (se3_identity_l _)). unfold local_motion, float_motion, floating_quaternion. cbn [jt_kind joint_floating joint_from_kind Nat.add nth both_moving]. rewrite one_norm. unfold quat_scale. cbn [qw qx qy qz]. rnum. unfold quat_identity. rnum. apply se3_eq; cbn [se3_rotation se3_translation]; [apply f_equal4; field|reflexivity]. }
  assert (F1 : nth 1 poses se3_identity = SE3 quat_identity (1, 0, 0)).
  { rewrite (P 1%nat _ 7%nat eq_refl eq_refl). unfold hangs_from. cbn [nth_error tr_parents carried_arm jt_origin with_axis arm]. rewrite F0. change (SE3 quat_identity (0, 0, 0)) with (se3_identity (T := R)). rewrite (proj1 (se3_identity_l _)). unfold local_motion. cbn [jt_kind with_axis arm jt_axis jt_anchor jt_zero_offset nth both_moving]. rewrite Rminus_0_r.
    assert (TM : turn_motion (0, 0, 1) (0, 1, 0) 0 = se3_identity).
    { unfold turn_motion, so3_exp. assert (Z : scale3 (T := R) (0, 0, 1) 0 = (0, 0, 0)) by (rewrite scale3_R; flat). rewrite Z, exp_origin. apply se3_eq; [reflexivity|]. cbn [se3_translation]. unfold so3_act. rewrite transform_identity, sub3_R. unfold se3_identity, zeros3. cbn [se3_translation]. rnum. flat. }
    rewrite TM. apply (proj2 (se3_identity_l _)). }
  cbn [chain nth_error tr_parents carried_arm map]. unfold adds. cbn [nth_error tr_joints carried_arm velocity_offset tree_len List.length Nat.leb has_floating_base Nat.ltb jt_kind joint_floating joint_from_kind kind_eqb andb with_axis arm Nat.add].
  rewrite F0, F1, !columns_R. cbn [jt_kind joint_floating joint_from_kind with_axis arm map nth app drive fst snd both in_frame jt_axis jt_anchor se3_rotation se3_translation both_rates]. rewrite !transform_identity. unfold se3_act, so3_act. cbn [se3_rotation se3_translation]. rewrite transform_identity, add3_R. cbn [pair_sum fold_right fst snd]. apply pair_eq; flat.
Qed.

Print Assumptions C144_push.
Print Assumptions C144_refusal.
Print Assumptions C144_built.
Print Assumptions C144_offsets.
Print Assumptions C144_try_from.
Print Assumptions C144_axes.
Print Assumptions C145_answer.
Print Assumptions C145_poses.
Print Assumptions C145_no_orientation.
Print Assumptions C145_untouched.
Print Assumptions C146_errors.
Print Assumptions C146_velocity.
Print Assumptions C146_off_chain.
Print Assumptions C146_columns.
Print Assumptions C146_floating_origin_refuted.

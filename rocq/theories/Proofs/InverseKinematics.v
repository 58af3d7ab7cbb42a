(** Lemmas for C147: the loop of inverse kinematics. *)
From Coq Require Import ZArith List Bool Arith Reals Lra Lia Classical.
From Verif Require Import Base.Scalar Base.RNum Base.Lists Base.Series Model.Errors Model.Vector Model.Matrix Model.Lu Model.Svd Model.Quaternion Model.Lie Model.Drive Model.KinematicTree Model.InverseKinematics
  Spec.Matrix Spec.Motion Spec.KinematicTree Spec.InverseKinematics Proofs.Vector Proofs.KinematicTree.
Import ListNotations.

(** *** Folds that write slots *)
Lemma fold_length {A} (f : list A -> nat -> list A) l : (forall v m, length (f v m) = length v) -> forall v, length (fold_left f l v) = length v.
Proof. intros H. induction l as [|m l IH]; intros v; [reflexivity|]. cbn. rewrite IH. apply H. Qed.
Lemma fold_keeps {A} (d : A) (f : list A -> nat -> list A) l k : (forall v m, In m l -> nth k (f v m) d = nth k v d) -> forall v, nth k (fold_left f l v) d = nth k v d.
Proof. induction l as [|m l IH]; intros H v; [reflexivity|]. cbn. rewrite IH by (intros; apply H; right; auto). apply H. left. reflexivity. Qed.
Lemma fold_writes {A} (d : A) (f : list A -> nat -> list A) n k i g : (i < n)%nat -> (forall v m, length (f v m) = length v) -> (forall v m, (m < n)%nat -> m <> i -> nth k (f v m) d = nth k v d) ->
  forall v, (forall v', length v' = length v -> nth k (f v' i) d = g (nth k v' d)) -> nth k (fold_left f (seq 0 n) v) d = g (nth k v d).
Proof.
  intros I L H v G. replace n with (i + (1 + (n - i - 1)))%nat by lia. rewrite !seq_app, !fold_left_app. cbn [seq fold_left].
  rewrite fold_keeps by (intros v' m M; apply in_seq in M; apply H; lia). rewrite G by (apply fold_length, L). f_equal. apply fold_keeps. intros v' m M. apply in_seq in M. apply H; lia.
Qed.

Section Any.
  Context {T : Type} {NT : Num T}.
  Implicit Types (t : tree T) (s : ik T).

  (** *** Offsets do not meet *)
  Lemma offset_some t i j : tree_joint t i = Some j -> exists a b, config_offset t i = Some a /\ velocity_offset t i = Some b /\ (i < tree_len t)%nat.
  Proof.
    unfold tree_joint. intros J. assert (I : (i < tree_len t)%nat) by (unfold tree_len; apply nth_error_Some; congruence).
    unfold config_offset, velocity_offset. rewrite (proj2 (Nat.leb_gt _ _) I). destruct (has_floating_base t && Nat.ltb 0 i); eauto.
  Qed.
  Lemma floating_first mj mc t i j : built mj mc t -> tree_joint t i = Some j -> jt_kind j = Floating -> i = 0%nat /\ has_floating_base t = true.
  Proof.
    intros B J K. destruct (built_sound mj mc t B) as (_ & _ & _ & FL & _). destruct (FL i j J K) as [-> _]. split; [reflexivity|]. unfold tree_joint, has_floating_base in *. destruct (tr_joints t); [discriminate|]. injection J as ->. apply kind_eqb_spec, K.
  Qed.
  Lemma first_floating t j : tree_joint t 0 = Some j -> has_floating_base t = true -> jt_kind j = Floating.
  Proof. unfold tree_joint, has_floating_base. destruct (tr_joints t); [discriminate|]. intros [= ->]. apply kind_eqb_spec. Qed.
  Lemma config_apart mj mc t i j a i' j' a' k k' : built mj mc t -> tree_joint t i = Some j -> config_offset t i = Some a -> tree_joint t i' = Some j' -> config_offset t i' = Some a' ->
    (k < readings_of j)%nat -> (k' < readings_of j')%nat -> i <> i' -> (a + k <> a' + k')%nat.
  Proof.
    intros B J A J' A' K K' N. unfold config_offset in A, A'. destruct (Nat.leb (tree_len t) i); [discriminate|]. destruct (Nat.leb (tree_len t) i'); [discriminate|].
    assert (F : forall i j, tree_joint t i = Some j -> readings_of j = if has_floating_base t && Nat.eqb i 0 then 7%nat else 1%nat).
    { intros m jm Jm. unfold readings_of. destruct (jt_kind jm) eqn:KK; try (destruct (floating_first mj mc t m jm B Jm KK) as [-> ->]; reflexivity);
      (destruct (Nat.eqb_spec m 0) as [->|]; [|rewrite andb_false_r; reflexivity]; destruct (has_floating_base t) eqn:H; [|reflexivity]; rewrite (first_floating t jm Jm H) in KK; discriminate). }
    rewrite (F i j J) in K. rewrite (F i' j' J') in K'. destruct (has_floating_base t); cbn [andb] in *; destruct (Nat.eqb_spec i 0), (Nat.eqb_spec i' 0), (Nat.ltb_spec 0 i), (Nat.ltb_spec 0 i'); try lia; injection A as <-; injection A' as <-; lia.
  Qed.
  Lemma velocity_apart mj mc t i j a i' j' a' k k' : built mj mc t -> tree_joint t i = Some j -> velocity_offset t i = Some a -> tree_joint t i' = Some j' -> velocity_offset t i' = Some a' ->
    (k < rates_of j)%nat -> (k' < rates_of j')%nat -> i <> i' -> (a + k <> a' + k')%nat.
  Proof.
    intros B J A J' A' K K' N. unfold velocity_offset in A, A'. destruct (Nat.leb (tree_len t) i); [discriminate|]. destruct (Nat.leb (tree_len t) i'); [discriminate|].
    assert (F : forall i j, tree_joint t i = Some j -> rates_of j = if has_floating_base t && Nat.eqb i 0 then 6%nat else 1%nat).
    { intros m jm Jm. unfold rates_of. destruct (jt_kind jm) eqn:KK; try (destruct (floating_first mj mc t m jm B Jm KK) as [-> ->]; reflexivity);
      (destruct (Nat.eqb_spec m 0) as [->|]; [|rewrite andb_false_r; reflexivity]; destruct (has_floating_base t) eqn:H; [|reflexivity]; rewrite (first_floating t jm Jm H) in KK; discriminate). }
    rewrite (F i j J) in K. rewrite (F i' j' J') in K'. destruct (has_floating_base t); cbn [andb] in *; destruct (Nat.eqb_spec i 0), (Nat.eqb_spec i' 0), (Nat.ltb_spec 0 i), (Nat.ltb_spec 0 i'); try lia; injection A as <-; injection A' as <-; lia.
  Qed.
  Lemma config_room mj mc t i j a : built mj mc t -> tree_joint t i = Some j -> config_offset t i = Some a -> (a + readings_of j <= config_len t)%nat /\ (config_len t <= mc)%nat.
  Proof.
    intros B J A. split; [|apply (built_sound mj mc t B)]. destruct (offset_some t i j J) as (x & y & _ & _ & I). destruct (offsets_total mj mc t i B I) as [O _]. rewrite A in O. injection O as ->. destruct (lens_total mj mc t B) as [-> _].
    unfold tree_joint in J. apply nth_error_split in J. destruct J as (l1 & l2 & E & <-). rewrite E. rewrite firstn_app, Nat.sub_diag, firstn_all. cbn [firstn]. rewrite app_nil_r, total_app. cbn. lia.
  Qed.
  Lemma velocity_room mj mc t i j a : built mj mc t -> tree_joint t i = Some j -> velocity_offset t i = Some a -> (a + rates_of j <= velocity_len t)%nat /\ (velocity_len t <= mc)%nat.
  Proof.
    intros B J A. split.
    - destruct (offset_some t i j J) as (x & y & _ & _ & I). destruct (offsets_total mj mc t i B I) as [_ O]. rewrite A in O. injection O as ->. destruct (lens_total mj mc t B) as [_ ->].
      unfold tree_joint in J. apply nth_error_split in J. destruct J as (l1 & l2 & E & <-). rewrite E. rewrite firstn_app, Nat.sub_diag, firstn_all. cbn [firstn]. rewrite app_nil_r, total_app. cbn. lia.
    - destruct (built_sound mj mc t B) as (_ & _ & C & _). unfold velocity_len, config_len in *. destruct (Nat.eqb _ 0); [lia|]. destruct (has_floating_base t); lia.
  Qed.

  (** *** The limits *)
  Lemma hold_joint_length t v m : length (hold_joint t v m) = length v.
  Proof. unfold hold_joint. repeat match goal with |- context [match ?x with _ => _ end] => destruct x end; auto using set_nth_length. Qed.
  Lemma hold_length s t v : length (hold_inside_limits s t v) = length v.
  Proof. unfold hold_inside_limits. destruct (ik_respect_limits s); [|reflexivity]. apply fold_length. apply hold_joint_length. Qed.
  Lemma move_joint_length t c st v m : length (move_joint t c st v m) = length v.
  Proof.
    unfold move_joint. repeat match goal with |- context [match ?x with _ => _ end] => destruct x end; auto using set_nth_length. apply fold_length. intros. apply set_nth_length.
  Qed.
  Lemma next_length s t c st : length (next_configuration s t c st) = length c.
  Proof. unfold next_configuration. rewrite hold_length. apply fold_length. apply move_joint_length. Qed.

  (** *** The run *)
  Lemma errors_measured mj t k target q state error errors : errors_at mj t k target q = Ok (state, error, errors) -> residuals mj t k target q (fst errors) (snd errors) /\ forward_kinematics mj q t = Ok state.
  Proof.
    unfold errors_at, residuals. destruct (forward_kinematics mj q t) as [poses|e|]; try discriminate. cbn [bind]. destruct (nth_error poses k) as [pose|] eqn:E; [|discriminate]. cbn [ok_or bind]. intros [= <- <- <-].
    split; [|reflexivity]. exists poses, pose. unfold split_error, task_error. cbn [fst snd]. auto.
  Qed.
  Lemma errors_pose mj t k target q state error errors : errors_at mj t k target q = Ok (state, error, errors) ->
    exists pose, forward_kinematics mj q t = Ok state /\ nth_error state k = Some pose /\ error = se3_log (se3_compose (se3_inverse pose) target) /\ errors = (norm3 (fst error), norm3 (snd error)).
  Proof.
    unfold errors_at. destruct (forward_kinematics mj q t) as [poses|e|]; try discriminate. cbn [bind]. destruct (nth_error poses k) as [pose|] eqn:E; [|discriminate]. cbn [ok_or bind]. intros [= <- <- <-]. exists pose. auto.
  Qed.
  Lemma loop_cases mj mc s t k target : forall remaining iterations q ended, ik_loop mj mc s t k target remaining iterations q = Ok ended ->
    match ended with
    | inl r => exists n, (n < remaining)%nat /\ passes mj mc s t k target n q (ik_joint_positions r) /\ ik_iterations r = S (iterations + n) /\
        residuals mj t k target (ik_joint_positions r) (ik_position_error r) (ik_orientation_error r) /\
        ((ik_termination r = IkConverged /\ within_tolerances s (ik_position_error r) (ik_orientation_error r)) \/
         (ik_termination r = IkStalled /\ ~ within_tolerances s (ik_position_error r) (ik_orientation_error r) /\ exists q', pass mj mc s t k target (ik_joint_positions r) q' /\ too_short s (ik_joint_positions r) q'))
    | inr q' => passes mj mc s t k target remaining q q'
    end.
  Proof.
    induction remaining as [|remaining IH]; intros iterations q ended; cbn [ik_loop]; [intros [= <-]; constructor|].
    destruct (errors_at mj t k target q) as [[[state error] [pe oe]]|e|] eqn:E; try discriminate. cbn [bind]. destruct (errors_measured _ _ _ _ _ _ _ _ E) as [M F]. cbn [fst snd] in M.
    destruct (errors_pose _ _ _ _ _ _ _ _ E) as (pose & _ & PK & EE & _).
    destruct (Scalar.leb pe (ik_position_tolerance s) && Scalar.leb oe (ik_orientation_tolerance s)) eqn:W.
    - intros [= <-]. cbn. exists 0%nat. split; [lia|]. split; [constructor|]. split; [lia|]. split; [exact M|left]. split; [reflexivity|]. apply andb_prop in W. exact W.
    - assert (NW : ~ within_tolerances s pe oe) by (intros [A B]; rewrite A, B in W; discriminate).
      destruct (step_at mj mc s t k state error q) as [step|e|] eqn:ST; try discriminate. cbn [bind].
      assert (P : pass mj mc s t k target q (next_configuration s t q step)) by (exists state, pose, step; rewrite <- EE; auto).
      destruct (Scalar.leb (norm _) _) eqn:N.
      + intros [= <-]. cbn [ik_joint_positions ik_iterations ik_position_error ik_orientation_error ik_termination]. exists 0%nat. split; [lia|]. split; [constructor|]. split; [lia|]. split; [exact M|right]. split; [reflexivity|]. split; [exact NW|]. exists (next_configuration s t q step). split; [exact P|exact N].
      + intros H. specialize (IH _ _ _ H). assert (NS : ~ too_short s q (next_configuration s t q step)) by (unfold too_short; congruence). destruct ended as [r|q'].
        * destruct IH as (n & L & R & I & Z). exists (S n). split; [lia|]. split; [exact (passes_more _ _ _ _ _ _ n q _ _ pe oe M NW P NS R)|]. split; [lia|]. exact Z.
        * exact (passes_more _ _ _ _ _ _ remaining q _ _ pe oe M NW P NS IH).
  Qed.

  Lemma check_weights_cases weights n : forall from,
    ((forall k, (from <= k < from + n)%nat -> exists w, nth_error weights k = Some w /\ Scalar.leb w zero = false) /\ check_weights weights (seq from n) = Ok tt) \/
    ((exists k, (from <= k < from + n)%nat /\ (nth_error weights k = None \/ Scalar.leb (nth k weights zero) zero = true)) /\ check_weights weights (seq from n) = Err KiNonPositiveWeight).
  Proof.
    induction n as [|n IH]; intros from; [left; split; [lia|reflexivity]|]. cbn [seq check_weights]. destruct (nth_error weights from) as [w|] eqn:E; cbn [ok_or bind].
    - destruct (Scalar.leb w zero) eqn:L.
      + right. split; [|reflexivity]. exists from. split; [lia|]. right. rewrite (nth_error_nth _ _ _ E). exact L.
      + destruct (IH (S from)) as [[A ->]|[(k & K & A) ->]]; [left|right]; (split; [|reflexivity]).
        * intros k K. destruct (Nat.eq_dec k from) as [->|N]; [exists w; auto|apply A; lia].
        * exists k. split; [lia|exact A].
    - right. split; [|reflexivity]. exists from. split; [lia|left; exact E].
  Qed.
  Lemma pose_finite (target : se3 T) : pose_is_finite target = true <-> (forall x, In x (numbers_of_pose target) -> is_finite x = true).
  Proof.
    unfold pose_is_finite, numbers_of_pose, quat_as_array, is_finite3. destruct (se3_translation target) as [[x y] z]. cbn -[is_finite]. rewrite !andb_true_iff. split.
    - intros H v V. repeat (destruct V as [<-|V]; [tauto|]). contradiction.
    - intros H. repeat split; apply H; tauto.
  Qed.
  Lemma request_finite (target : se3 T) (seed : list T) : negb (vec_is_finite seed) || negb (pose_is_finite target) = true <-> exists x, In x (seed ++ numbers_of_pose target) /\ is_finite x = false.
  Proof.
    rewrite <- negb_andb, negb_true_iff. split.
    - intros H. destruct (vec_is_finite seed) eqn:V.
      + cbn [andb] in H. pose proof (pose_finite target) as P. rewrite H in P. apply NNPP. intros N. assert (false = true); [|discriminate]. apply P. intros x X. destruct (is_finite x) eqn:F; [reflexivity|]. exfalso. apply N. exists x. rewrite in_app_iff. auto.
      + unfold vec_is_finite in V. apply NNPP. intros N. assert (forallb is_finite seed = true); [|congruence]. apply forallb_forall. intros x X. destruct (is_finite x) eqn:F; [reflexivity|]. exfalso. apply N. exists x. rewrite in_app_iff. auto.
    - intros (x & X & F). apply in_app_iff in X. destruct (vec_is_finite seed) eqn:V; [|reflexivity]. cbn [andb]. unfold vec_is_finite in V. rewrite forallb_forall in V. destruct X as [X|X]; [rewrite (V x X) in F; discriminate|].
      destruct (pose_is_finite target) eqn:P; [|reflexivity]. rewrite (proj1 (pose_finite target) P x X) in F. discriminate.
  Qed.
End Any.

(** *** Over the reals *)
Local Open Scope R_scope.
Lemma built_limits mj mc (t : tree R) : built mj mc t -> forall i j lower upper, tree_joint t i = Some j -> jt_limits j = Some (lower, upper) -> lower <= upper /\ jt_kind j <> Continuous.
Proof.
  unfold tree_joint. induction 1 as [|t j parent t' B IH P]; intros i j' lower upper; [destruct i; discriminate|].
  destruct (push_cases mj mc j parent t) as [[F E]|[_ (e & E)]]; rewrite P in E; [|discriminate]. injection E as ->. cbn [tr_joints]. rewrite nth_error_snoc. destruct (Nat.eqb i _); [|apply IH]. intros [= <-].
  destruct F as (_ & _ & _ & _ & F & _). intros L. assert (L' : jt_limits j = Some (lower, upper)). { revert L. unfold as_stored. destruct (jt_kind j); auto; destruct (try_normalized3 _); auto. }
  destruct (F _ _ L') as (_ & _ & A & K). rewrite stored_kind. split; [|exact K]. rnum. destruct (Rltb upper lower) eqn:E; [discriminate|]. rcases. lra.
Qed.
Definition clamped (limits : option (R * R)) (x : R) : R := match limits with Some (lower, upper) => Rmin (Rmax x lower) upper | None => x end.
Lemma min_max_R x lower upper : lower <= upper -> Scalar.min (Scalar.max x lower) upper = Rmin (Rmax x lower) upper.
Proof. intros H. rnum. unfold default_max, default_min, Rmin, Rmax. rnum. repeat destruct (Rle_dec _ _); repeat match goal with |- context [if ?b then _ else _] => destruct b eqn:?; rcases end; try lra. Qed.

Section Reals.
  Variables (mj mc : nat) (t : tree R).
  Hypothesis B : built mj mc t.

  (** What holding does to a slot *)
  Lemma hold_other k v : (forall i j a, tree_joint t i = Some j -> config_offset t i = Some a -> jt_kind j <> Floating -> jt_limits j <> None -> a <> k) ->
    nth k (fold_left (hold_joint t) (seq 0 (tree_len t)) v) 0 = nth k v 0.
  Proof.
    intros H. apply fold_keeps. intros v' m _. unfold hold_joint. destruct (tree_joint t m) as [j|] eqn:J; [|reflexivity]. destruct (kind_eqb (jt_kind j) Floating) eqn:K; [reflexivity|].
    destruct (jt_limits j) as [[lower upper]|] eqn:L; [|reflexivity]. destruct (config_offset t m) as [a|] eqn:A; [|reflexivity]. destruct (nth_error v' a); [|reflexivity].
    apply nth_set_nth_neq. apply (H m j a J A); [|congruence]. intros E. rewrite E in K. discriminate.
  Qed.
  Lemma hold_slot s i j a v : length v = mc -> tree_joint t i = Some j -> config_offset t i = Some a -> jt_kind j <> Floating -> ik_respect_limits s = true ->
    nth a (hold_inside_limits s t v) 0 = clamped (jt_limits j) (nth a v 0).
  Proof.
    intros L J A K RL. unfold hold_inside_limits. rewrite RL. cbn [negb]. destruct (offset_some t i j J) as (_ & _ & _ & _ & I).
    assert (RM : forall jj, jt_kind jj <> Floating -> @readings_of R jj = 1%nat) by (intros jj; unfold readings_of; destruct (jt_kind jj); congruence).
    apply (fold_writes 0 (hold_joint t) (tree_len t) a i (clamped (jt_limits j)) I (hold_joint_length t)).
    - intros v' m M N. unfold hold_joint. destruct (tree_joint t m) as [j'|] eqn:J'; [|reflexivity]. destruct (kind_eqb (jt_kind j') Floating) eqn:K'; [reflexivity|].
      destruct (jt_limits j') as [[lower upper]|]; [|reflexivity]. destruct (config_offset t m) as [a'|] eqn:A'; [|reflexivity]. destruct (nth_error v' a'); [|reflexivity]. apply nth_set_nth_neq. intros E.
      assert (KN : jt_kind j' <> Floating) by (intros X; rewrite X in K'; discriminate).
      apply (config_apart mj mc t m j' a' i j a 0 0 B J' A' J A); rewrite ?RM by auto; lia.
    - intros v' L'. unfold hold_joint. rewrite J. destruct (kind_eqb (jt_kind j) Floating) eqn:E; [apply kind_eqb_spec in E; contradiction|]. unfold clamped. destruct (jt_limits j) as [[lower upper]|] eqn:LL; [|reflexivity].
      rewrite A. destruct (config_room mj mc t i j a B J A) as [RO1 RO2]. rewrite RM in RO1 by auto. rewrite (nth_error_nth' v' 0) by lia. rewrite nth_set_nth_eq by lia. destruct (built_limits mj mc t B i j lower upper J LL). apply min_max_R; auto.
  Qed.
  Lemma hold_inside s v : length v = mc -> ik_respect_limits s = true -> inside_limits t (hold_inside_limits s t v).
  Proof.
    intros L RL i j a lower upper J A K LL. rewrite (hold_slot s i j a v L J A K RL), LL. cbn. destruct (built_limits mj mc t B i j lower upper J LL) as [H _]. unfold Rmin, Rmax. repeat destruct (Rle_dec _ _); lra.
  Qed.

  (** What a step does to a slot *)
  Lemma move_slot i j a b c st v : length v = mc -> length st = mc -> tree_joint t i = Some j -> config_offset t i = Some a -> velocity_offset t i = Some b -> jt_kind j <> Floating ->
    nth a (fold_left (move_joint t c st) (seq 0 (tree_len t)) v) 0 = nth a v 0 + nth b st 0.
  Proof.
    intros L LS J A V K. destruct (offset_some t i j J) as (_ & _ & _ & _ & I).
    assert (RM : readings_of j = 1%nat) by (unfold readings_of; destruct (jt_kind j); congruence).
    apply (fold_writes 0 (move_joint t c st) (tree_len t) a i (fun x => x + nth b st 0) I (move_joint_length t c st)).
    - intros v' m M N. unfold move_joint. destruct (tree_joint t m) as [j'|] eqn:J'; [|reflexivity]. destruct (config_offset t m) as [a'|] eqn:A'; [|reflexivity]. destruct (velocity_offset t m) as [b'|] eqn:V'; [|reflexivity].
      destruct (kind_eqb (jt_kind j') Floating) eqn:K'.
      + destruct (moved_free c st a' b') as [place|]; [|reflexivity]. apply fold_keeps. intros w sl SL. apply in_seq in SL. apply nth_set_nth_neq. intros E.
        apply (config_apart mj mc t m j' a' i j a sl 0 B J' A' J A); [|lia|exact N|lia]. unfold readings_of. apply kind_eqb_spec in K'. rewrite K'. lia.
      + destruct (nth_error v' a'); [|reflexivity]. destruct (nth_error st b'); [|reflexivity]. apply nth_set_nth_neq. intros E.
        apply (config_apart mj mc t m j' a' i j a 0 0 B J' A' J A); [|lia|exact N|lia]. unfold readings_of. destruct (jt_kind j'); lia.
    - intros v' L'. unfold move_joint. rewrite J, A, V. destruct (kind_eqb (jt_kind j) Floating) eqn:E; [apply kind_eqb_spec in E; contradiction|].
      destruct (config_room mj mc t i j a B J A) as [RO1 RO2]. destruct (velocity_room mj mc t i j b B J V) as [RV1 RV2].
      assert (rates_of j = 1%nat) by (unfold rates_of; destruct (jt_kind j); congruence).
      rewrite (nth_error_nth' v' 0), (nth_error_nth' st 0) by lia. rewrite nth_set_nth_eq by lia. reflexivity.
  Qed.
  Lemma move_other k c st v : (forall i j a n, tree_joint t i = Some j -> config_offset t i = Some a -> (n < readings_of j)%nat -> (a + n)%nat <> k) ->
    nth k (fold_left (move_joint t c st) (seq 0 (tree_len t)) v) 0 = nth k v 0.
  Proof.
    intros H. apply fold_keeps. intros v' m _. unfold move_joint. destruct (tree_joint t m) as [j'|] eqn:J'; [|reflexivity]. destruct (config_offset t m) as [a'|] eqn:A'; [|reflexivity]. destruct (velocity_offset t m) as [b'|] eqn:V'; [|reflexivity].
    destruct (kind_eqb (jt_kind j') Floating) eqn:K'.
    - destruct (moved_free c st a' b') as [place|]; [|reflexivity]. apply fold_keeps. intros w sl SL. apply in_seq in SL. apply nth_set_nth_neq. apply (H m j' a' sl J' A'). unfold readings_of. apply kind_eqb_spec in K'. rewrite K'. lia.
    - destruct (nth_error v' a'); [|reflexivity]. destruct (nth_error st b'); [|reflexivity]. apply nth_set_nth_neq. rewrite <- (Nat.add_0_r a'). apply (H m j' a' 0%nat J' A'). unfold readings_of. destruct (jt_kind j'); lia.
  Qed.

  (** The mask *)
  Lemma mask_length st v m : length (mask_joint st t v m) = length v.
  Proof.
    unfold mask_joint. destruct (tree_joint t m) as [j|]; [|reflexivity]. destruct (velocity_offset t m) as [b|]; [|reflexivity]. destruct (kind_eqb _ Fixed); [reflexivity|].
    apply fold_length. intros w o. destruct (nth_error st _); [apply set_nth_length|reflexivity].
  Qed.
  Lemma masked_other st k v : (forall i j b n, tree_joint t i = Some j -> velocity_offset t i = Some b -> jt_kind j <> Fixed -> (n < rates_of j)%nat -> (b + n)%nat <> k) ->
    nth k (fold_left (mask_joint st t) (seq 0 (tree_len t)) v) 0 = nth k v 0.
  Proof.
    intros H. apply fold_keeps. intros v' m _. unfold mask_joint. destruct (tree_joint t m) as [j|] eqn:J; [|reflexivity]. destruct (velocity_offset t m) as [b|] eqn:V; [|reflexivity].
    destruct (kind_eqb (jt_kind j) Fixed) eqn:K; [reflexivity|]. apply fold_keeps. intros w o O. apply in_seq in O. destruct (nth_error st _); [|reflexivity]. apply nth_set_nth_neq. apply (H m j b o J V).
    - intros E. rewrite E in K. discriminate.
    - unfold rates_of. destruct (jt_kind j); cbn in *; lia.
  Qed.
  Lemma masked_slot st i j b n v : length v = mc -> length st = mc -> tree_joint t i = Some j -> velocity_offset t i = Some b -> jt_kind j <> Fixed -> (n < rates_of j)%nat ->
    nth (b + n) (fold_left (mask_joint st t) (seq 0 (tree_len t)) v) 0 = nth (b + n) st 0.
  Proof.
    intros L LS J V K N. destruct (offset_some t i j J) as (_ & _ & _ & _ & I). destruct (velocity_room mj mc t i j b B J V) as [RV1 RV2].
    apply (fold_writes 0 (mask_joint st t) (tree_len t) (b + n) i (fun _ => nth (b + n) st 0) I (mask_length st)).
    - intros v' m M NE. unfold mask_joint. destruct (tree_joint t m) as [j'|] eqn:J'; [|reflexivity]. destruct (velocity_offset t m) as [b'|] eqn:V'; [|reflexivity]. destruct (kind_eqb (jt_kind j') Fixed); [reflexivity|].
      apply fold_keeps. intros w o O. apply in_seq in O. destruct (nth_error st _); [|reflexivity]. apply nth_set_nth_neq. apply (velocity_apart mj mc t m j' b' i j b o n B J' V' J V); auto. unfold rates_of. destruct (jt_kind j'); cbn in *; lia.
    - intros v' L'. unfold mask_joint. rewrite J, V. destruct (kind_eqb (jt_kind j) Fixed) eqn:E; [apply kind_eqb_spec in E; contradiction|].
      assert (W : (if kind_eqb (jt_kind j) Floating then 6%nat else 1%nat) = rates_of j) by (unfold rates_of; destruct (jt_kind j); reflexivity). rewrite W.
      set (f := fun masked offset => match nth_error st (b + offset) with Some src => set_nth masked (b + offset) src | None => masked end).
      assert (FL : forall v m, length (f v m) = length v) by (intros w o; unfold f; destruct (nth_error st _); [apply set_nth_length|reflexivity]).
      apply (fold_writes 0 f (rates_of j) (b + n) n (fun _ => nth (b + n) st 0) N FL).
      + intros w o O NE. unfold f. destruct (nth_error st _); [|reflexivity]. apply nth_set_nth_neq. lia.
      + intros w LW. unfold f. rewrite (nth_error_nth' st 0) by lia. apply nth_set_nth_eq. lia.
  Qed.
End Reals.

(** Kinematic trees: what the accepted joints look like, and how the poses are laid out, over any scalar. *)
From Coq Require Import ZArith List Bool Arith Lia Reals.
From Verif Require Import Base.Scalar Base.Lists Model.Errors Model.Vector Model.Matrix Model.Quaternion Model.Lie Model.Drive Model.KinematicTree Spec.KinematicTree.
Import ListNotations.

Lemma kind_eqb_spec a b : kind_eqb a b = true <-> a = b.
Proof. destruct a, b; cbn; split; intros H; congruence. Qed.
Lemma nth_error_snoc {A} (l : list A) x i : nth_error (l ++ [x]) i = if Nat.eqb i (length l) then Some x else nth_error l i.
Proof.
  destruct (Nat.eqb_spec i (length l)) as [->|N]; [rewrite nth_error_app2, Nat.sub_diag by lia; reflexivity|].
  destruct (Nat.lt_ge_cases i (length l)) as [L|L]; [apply nth_error_app1, L|]. rewrite (proj2 (nth_error_None _ _)) by (rewrite app_length; cbn; lia). symmetry. apply nth_error_None. exact L.
Qed.
Lemma total_app {A} (f : A -> nat) l l' : total f (l ++ l') = total f l + total f l'.
Proof. unfold total. induction l as [|a l IH]; cbn; [reflexivity|rewrite IH; lia]. Qed.

Lemma last_split {A} (l : list A) x : nth_error l (length l - 1) = Some x -> l = firstn (length l - 1) l ++ [x].
Proof.
  induction l as [|a l _] using rev_ind; [discriminate|]. rewrite app_length. cbn [length]. replace (length l + 1 - 1) with (length l) by lia. rewrite nth_error_app2, Nat.sub_diag by lia. cbn. intros [= ->].
  rewrite firstn_app, firstn_all, Nat.sub_diag. cbn. rewrite app_nil_r. reflexivity.
Qed.

Section Any.
  Context {T : Type} {NT : Num T}.
  Implicit Types (t : tree T) (j : joint T).

  Lemma stored_kind j : jt_kind (as_stored j) = jt_kind j.
  Proof. unfold as_stored. destruct (jt_kind j) eqn:E; auto; destruct (try_normalized3 _); cbn; auto. Qed.

  Lemma finite_numbers j : joint_is_finite j = true <-> (forall x, In x (numbers_of j) -> is_finite x = true).
  Proof.
    unfold joint_is_finite, numbers_of, quat_as_array, is_finite3. destruct (se3_translation (jt_origin j)) as [[x y] z], (jt_axis j) as [[a b] c], (jt_anchor j) as [[d e] f]. cbn -[is_finite]. rewrite !andb_true_iff. split.
    - intros H v V. repeat (destruct V as [<-|V]; [tauto|]). contradiction.
    - intros H. repeat split; apply H; tauto.
  Qed.
  Lemma push_cases mj mc j parent t :
    (acceptable mj mc j parent t /\ push mj mc j parent t = ({| tr_joints := tr_joints t ++ [as_stored j]; tr_parents := tr_parents t ++ [parent] |}, Ok tt)) \/
    (~ acceptable mj mc j parent t /\ exists e, push mj mc j parent t = (t, Err e)).
  Proof.
    unfold push, acceptable. set (answer := if Nat.eqb (tree_len t) mj then _ else _).
    assert (H : (acceptable mj mc j parent t /\ answer = Ok (as_stored j)) \/ (~ acceptable mj mc j parent t /\ exists e, answer = Err e)).
    2: { destruct H as [[F ->]|[F (e & ->)]]; [left|right]; (split; [exact F|]); [reflexivity|exists e; reflexivity]. }
    subst answer. unfold acceptable.
    destruct (Nat.eqb_spec (tree_len t) mj) as [E|E]; [right; split; [tauto|eexists; reflexivity]|].
    destruct (match parent with OnJoint index => Nat.leb (tree_len t) index | World => false end) eqn:P.
    { right. split; [|eexists; reflexivity]. intros (_ & H & _). destruct parent as [|i]; [discriminate|]. apply Nat.leb_le in P. specialize (H i eq_refl). lia. }
    assert (P' : forall i, parent = OnJoint i -> i < tree_len t) by (intros i ->; apply Nat.leb_gt in P; exact P).
    destruct (kind_eqb (jt_kind j) Floating && _) eqn:F.
    { right. split; [|eexists; reflexivity]. intros (_ & _ & H & _). apply andb_prop in F. destruct F as [F1 F2]. apply kind_eqb_spec in F1. destruct (H F1) as [Z1 Z2]. rewrite Z1, Z2 in F2. cbn in F2. discriminate. }
    assert (F' : jt_kind j = Floating -> tree_len t = 0 /\ parent = World).
    { intros K. rewrite K in F. cbn in F. apply orb_false_elim in F. destruct F as [F1 F2]. apply negb_false_iff, Nat.eqb_eq in F1. split; [exact F1|]. destruct parent; [reflexivity|discriminate]. }
    pose proof (finite_numbers j) as FN. destruct (joint_is_finite j) eqn:N; cbn [negb]; [|right; split; [intros (_ & _ & _ & H & _); apply FN in H; congruence|eexists; reflexivity]]. assert (N' := proj1 FN eq_refl). clear FN.
    destruct (jt_limits j) as [[lower upper]|] eqn:L.
    - destruct (is_finite lower) eqn:L1; [|right; split; [intros (_ & _ & _ & _ & H & _); destruct (H _ _ eq_refl) as [A _]; congruence|cbn; eexists; reflexivity]].
      destruct (is_finite upper) eqn:L2; [|right; split; [intros (_ & _ & _ & _ & H & _); destruct (H _ _ eq_refl) as (_ & A & _); congruence|cbn; eexists; reflexivity]].
      cbn [negb orb]. destruct (Scalar.ltb upper lower) eqn:L3; [right; split; [intros (_ & _ & _ & _ & H & _); destruct (H _ _ eq_refl) as (_ & _ & A & _); congruence|cbn; eexists; reflexivity]|].
      cbn [bind]. rewrite andb_true_r. destruct (kind_eqb (jt_kind j) Continuous) eqn:C.
      { apply kind_eqb_spec in C. right. split; [intros (_ & _ & _ & _ & H & _); destruct (H _ _ eq_refl) as (_ & _ & _ & A); congruence|eexists; reflexivity]. }
      assert (C' : jt_kind j <> Continuous) by (intros X; apply kind_eqb_spec in X; congruence).
      assert (LL : forall a b, Some (lower, upper) = Some (a, b) -> is_finite a = true /\ is_finite b = true /\ Scalar.ltb b a = false /\ jt_kind j <> Continuous) by (intros a b [= <- <-]; auto).
      unfold as_stored, readings_of, config_width in *. destruct (jt_kind j) eqn:K; try congruence;
        try (destruct (try_normalized3 (jt_axis j)) as [axis|] eqn:X; cbn [ok_or bind]; [|right; split; [intros (_ & _ & _ & _ & _ & H & _); apply H; auto|eexists; reflexivity]]); cbn [bind jt_kind with_axis]; rewrite ?K;
        (match goal with |- context [Nat.ltb mc ?n] => destruct (Nat.ltb_spec mc n) as [W|W] end; [right; split; [intros (_ & _ & _ & _ & _ & _ & H); lia|eexists; reflexivity]|left; split; [|reflexivity]]);
        (split; [exact E|split; [exact P'|split; [first [exact F'|intros ?; discriminate]|split; [exact N'|split; [exact LL|split; [intros HH; first [congruence|destruct HH as [?|[?|?]]; discriminate]|lia]]]]]]).
    - cbn [bind]. rewrite andb_false_r.
      assert (LL : forall a b : T, None = Some (a, b) -> is_finite a = true /\ is_finite b = true /\ Scalar.ltb b a = false /\ jt_kind j <> Continuous) by discriminate.
      unfold as_stored, readings_of, config_width in *. destruct (jt_kind j) eqn:K; try congruence;
        try (destruct (try_normalized3 (jt_axis j)) as [axis|] eqn:X; cbn [ok_or bind]; [|right; split; [intros (_ & _ & _ & _ & _ & H & _); apply H; auto|eexists; reflexivity]]); cbn [bind jt_kind with_axis]; rewrite ?K;
        (match goal with |- context [Nat.ltb mc ?n] => destruct (Nat.ltb_spec mc n) as [W|W] end; [right; split; [intros (_ & _ & _ & _ & _ & _ & H); lia|eexists; reflexivity]|left; split; [|reflexivity]]);
        (split; [exact E|split; [exact P'|split; [first [exact F'|intros ?; discriminate]|split; [exact N'|split; [exact LL|split; [intros HH; first [congruence|destruct HH as [?|[?|?]]; discriminate]|lia]]]]]]).
  Qed.

  (** *** The invariant of every tree that can be built *)
  Definition sound (mj mc : nat) (t : tree T) : Prop :=
    length (tr_parents t) = tree_len t /\ tree_len t <= mj /\ config_len t <= mc /\
    (forall i j, nth_error (tr_joints t) i = Some j -> jt_kind j = Floating -> i = 0 /\ nth_error (tr_parents t) i = Some World) /\
    (forall i p, nth_error (tr_parents t) i = Some (OnJoint p) -> p < i).
  Lemma config_len_push t j p : (jt_kind j = Floating -> tree_len t = 0) -> config_len {| tr_joints := tr_joints t ++ [j]; tr_parents := tr_parents t ++ [p] |} = config_len t + readings_of j.
  Proof.
    unfold config_len, has_floating_base, readings_of, tree_len. cbn [tr_joints]. rewrite app_length. cbn [length]. destruct (tr_joints t) as [|j0 l]; cbn [app length Nat.add Nat.eqb].
    - destruct (jt_kind j); reflexivity.
    - intros H. replace (S (length l + 1)) with (S (length l) + 1) by lia. destruct (jt_kind j) eqn:E; try (specialize (H eq_refl); discriminate); destruct (kind_eqb (jt_kind j0) Floating); lia.
  Qed.
  Lemma built_sound mj mc t : built mj mc t -> sound mj mc t.
  Proof.
    induction 1 as [|t j parent t' B IH P].
    - split; [reflexivity|]. cbn. split; [lia|split; [lia|split; intros i ? H; destruct i; discriminate H]].
    - destruct (push_cases mj mc j parent t) as [[F E]|[_ (e & E)]]; rewrite P in E; [|discriminate]. injection E as ->. destruct IH as (L & M & C & FL & PA), F as (A1 & A2 & A3 & _ & _ & _ & A7). unfold sound. rewrite config_len_push by (rewrite stored_kind; intros K; apply (A3 K)).
      unfold tree_len in *. cbn [tr_joints tr_parents]. rewrite !app_length. cbn [length]. split; [lia|]. split; [lia|]. split.
      { unfold readings_of in *. rewrite stored_kind. lia. }
      split.
      + intros i j'. rewrite !nth_error_snoc, L. destruct (Nat.eqb_spec i (length (tr_joints t))) as [->|N]; [|apply FL]. intros [= <-]. rewrite stored_kind. intros K. destruct (A3 K) as [Z ->]. split; [exact Z|reflexivity].
      + intros i p. rewrite nth_error_snoc, L. destruct (Nat.eqb_spec i (length (tr_joints t))) as [->|N]; [|apply PA]. intros [= ->]. apply A2. reflexivity.
  Qed.
  (** Floating only at the front makes the offsets running totals. *)
  Lemma offsets_total mj mc t i : built mj mc t -> i < tree_len t ->
    config_offset t i = Some (total readings_of (firstn i (tr_joints t))) /\ velocity_offset t i = Some (total rates_of (firstn i (tr_joints t))).
  Proof.
    intros B I. destruct (built_sound mj mc t B) as (_ & _ & _ & FL & _). unfold config_offset, velocity_offset. rewrite (proj2 (Nat.leb_gt _ _) I). unfold has_floating_base, tree_len in *.
    destruct (tr_joints t) as [|j0 l]; [cbn in I; lia|].
    assert (Q : forall k, k <= length l -> total readings_of (firstn k l) = k /\ total rates_of (firstn k l) = k).
    { assert (F : forall i j, nth_error l i = Some j -> jt_kind j <> Floating) by (intros i' j' H K; destruct (FL (S i') j' H K) as [Z _]; discriminate).
      clear - F. induction l as [|j l IH]; intros k K; [destruct k; cbn in *; split; lia|]. destruct k as [|k]; [split; reflexivity|]. cbn [firstn total fold_right length] in *.
      destruct (IH (fun i j' H => F (S i) j' H) k ltac:(lia)) as [A A']. unfold total in A, A'. rewrite A, A'. pose proof (F 0 j eq_refl) as N. unfold readings_of, rates_of. destruct (jt_kind j); try congruence; split; reflexivity. }
    destruct i as [|i]; [rewrite andb_false_r; split; reflexivity|]. cbn [firstn total fold_right]. fold (total readings_of (firstn i l)). fold (total rates_of (firstn i l)). cbn [length] in I. destruct (Q i ltac:(lia)) as [-> ->].
    unfold readings_of, rates_of. destruct (jt_kind j0); cbn [kind_eqb andb Nat.ltb Nat.leb]; split; f_equal; lia.
  Qed.
  Lemma lens_total mj mc t : built mj mc t -> config_len t = total readings_of (tr_joints t) /\ velocity_len t = total rates_of (tr_joints t).
  Proof.
    intros B. pose proof (offsets_total mj mc t (tree_len t - 1) B) as H. destruct (Nat.eq_dec (tree_len t) 0) as [Z|Z].
    - unfold config_len, velocity_len. rewrite Z. unfold tree_len in Z. apply length_zero_iff_nil in Z. rewrite Z. split; reflexivity.
    - specialize (H ltac:(lia)). destruct (nth_error (tr_joints t) (tree_len t - 1)) as [j|] eqn:J; [|apply nth_error_None in J; unfold tree_len in *; lia].
      assert (S : tr_joints t = firstn (tree_len t - 1) (tr_joints t) ++ [j]).
      { apply last_split. exact J. }
      rewrite S, !total_app. destruct H as [H1 H2]. unfold config_offset, velocity_offset in H1, H2. rewrite (proj2 (Nat.leb_gt (tree_len t) (tree_len t - 1))) in H1, H2 by lia. unfold config_len, velocity_len. rewrite (proj2 (Nat.eqb_neq _ _) Z).
      destruct (built_sound mj mc t B) as (_ & _ & _ & FL & _). pose proof (FL _ _ J) as K. unfold readings_of at 2, rates_of at 2. cbn [total fold_right].
      assert (HF : has_floating_base t = true <-> exists j0, nth_error (tr_joints t) 0 = Some j0 /\ jt_kind j0 = Floating).
      { unfold has_floating_base. destruct (tr_joints t) as [|j0 l]; [split; [discriminate|intros (j0 & A & _); discriminate]|]. rewrite kind_eqb_spec. cbn. split; [intros X; exists j0; auto|intros (j1 & [= <-] & X); exact X]. }
      destruct (has_floating_base t) eqn:F; cbn [andb] in H1, H2.
      + destruct (Nat.ltb_spec 0 (tree_len t - 1)) as [P|P]; injection H1 as <-; injection H2 as <-.
        * destruct (jt_kind j) eqn:KK; try (destruct (K eq_refl); lia); lia.
        * destruct (proj1 HF eq_refl) as (j0 & A & X). replace (tree_len t - 1) with 0 in J by lia. rewrite A in J. injection J as ->. rewrite X. lia.
      + injection H1 as <-. injection H2 as <-. destruct (jt_kind j) eqn:KK; try lia. destruct (K eq_refl) as [Z0 _]. rewrite Z0 in J. assert (false = true); [|discriminate]. apply HF. exists j. auto.
  Qed.

  (** *** Forward kinematics *)
  Definition readable (q : list T) (off : nat) (j : joint T) : Prop :=
    forall k, k < readings_of j -> exists x, nth_error q (off + k) = Some x /\ (jt_kind j = Fixed \/ is_finite x = true).
  Lemma check_slots_cases kind q off w :
    ((forall k, k < w -> exists x, nth_error q (off + k) = Some x /\ (kind = Fixed \/ is_finite x = true)) /\ check_slots kind q off w = Ok tt) \/
    (~ (forall k, k < w -> exists x, nth_error q (off + k) = Some x /\ (kind = Fixed \/ is_finite x = true)) /\ check_slots kind q off w = Err KiNonFinite).
  Proof.
    revert off. induction w as [|w IH]; intros off; [left; split; [lia|reflexivity]|]. cbn [check_slots].
    destruct (nth_error q off) as [x|] eqn:E; cbn [ok_or bind]; [|right; split; [intros H; destruct (H 0 ltac:(lia)) as (x & A & _); rewrite Nat.add_0_r in A; congruence|reflexivity]].
    destruct (negb (kind_eqb kind Fixed) && negb (is_finite x)) eqn:B.
    - right. split; [|reflexivity]. intros H. destruct (H 0 ltac:(lia)) as (y & A & C). rewrite Nat.add_0_r, E in A. injection A as <-. apply andb_prop in B. destruct B as [B1 B2]. destruct C as [C|C]; [subst kind; discriminate|rewrite C in B2; discriminate].
    - assert (G : kind = Fixed \/ is_finite x = true).
      { apply andb_false_iff in B. destruct B as [B|B]; apply negb_false_iff in B; [left; apply kind_eqb_spec, B|right; exact B]. }
      destruct (IH (S off)) as [[A ->]|[A ->]]; [left|right]; (split; [|reflexivity]).
      + intros [|k] K; [exists x; rewrite Nat.add_0_r; auto|]. destruct (A k ltac:(lia)) as (y & Y). exists y. replace (off + S k) with (S off + k) by lia. exact Y.
      + intros H. apply A. intros k K. destruct (H (S k) ltac:(lia)) as (y & Y). exists y. replace (S off + k) with (off + S k) by lia. exact Y.
  Qed.
  Definition all_readable (t : tree T) (q : list T) : Prop := forall i j off, nth_error (tr_joints t) i = Some j -> config_offset t i = Some off -> readable q off j.
  Lemma config_offset_some t i : i < tree_len t -> exists off, config_offset t i = Some off.
  Proof. intros H. unfold config_offset. rewrite (proj2 (Nat.leb_gt _ _) H). destruct (_ && _); eexists; reflexivity. Qed.
  Lemma check_readings_cases t q i n : i + n = tree_len t ->
    ((forall m j off, i <= m -> nth_error (tr_joints t) m = Some j -> config_offset t m = Some off -> readable q off j) /\ check_readings t q (seq i n) = Ok tt) \/
    (~ (forall m j off, i <= m -> nth_error (tr_joints t) m = Some j -> config_offset t m = Some off -> readable q off j) /\ check_readings t q (seq i n) = Err KiNonFinite).
  Proof.
    revert i. induction n as [|n IH]; intros i E.
    - left. split; [|reflexivity]. intros m j off M J. assert (m < length (tr_joints t)) by (apply nth_error_Some; congruence). unfold tree_len in E. lia.
    - cbn [seq check_readings]. unfold tree_joint. destruct (nth_error (tr_joints t) i) as [j|] eqn:J; [|apply nth_error_None in J; unfold tree_len in E; lia].
      destruct (config_offset_some t i ltac:(lia)) as (off & O). rewrite O. cbn [ok_or bind].
      change (config_width (jt_kind j)) with (readings_of j). destruct (check_slots_cases (jt_kind j) q off (readings_of j)) as [[A ->]|[A ->]]; cbn [bind].
      + destruct (IH (S i) ltac:(lia)) as [[B ->]|[B ->]]; [left|right]; (split; [|reflexivity]).
        * intros m j' off' M J' O'. destruct (Nat.eq_dec m i) as [->|N]; [rewrite J in J'; rewrite O in O'; injection J' as <-; injection O' as <-; exact A|apply (B m); auto; lia].
        * intros H. apply B. intros m j' off' M. apply H. lia.
      + right. split; [|reflexivity]. intros H. apply A. apply (H i j off); auto.
  Qed.
  Lemma motion_cases q off j : readable q off j -> (exists local, joint_motion q off j = Ok local) \/ (jt_kind j = Floating /\ joint_motion q off j = Err KiOrientationHasNoDirection).
  Proof.
    intros H. unfold joint_motion, readable, readings_of in *. destruct (jt_kind j) eqn:K.
    1-3: destruct (H 0 ltac:(lia)) as (x & X & _); rewrite Nat.add_0_r in X; rewrite X; left; eexists; reflexivity.
    - left; eexists; reflexivity.
    - cbn [seq map]. destruct (H 0 ltac:(lia)) as (x & -> & _), (H 1 ltac:(lia)) as (y & -> & _), (H 2 ltac:(lia)) as (z & -> & _), (H 3 ltac:(lia)) as (w & -> & _), (H 4 ltac:(lia)) as (a & -> & _), (H 5 ltac:(lia)) as (b & -> & _), (H 6 ltac:(lia)) as (c & -> & _).
      destruct (from_generalized_vectors _ _ _); [left; eexists; reflexivity|right; split; reflexivity].
  Qed.
  Definition all_move (t : tree T) (q : list T) : Prop := forall i j off, nth_error (tr_joints t) i = Some j -> config_offset t i = Some off -> exists local, joint_motion q off j = Ok local.
  (** The poses of the joints [i .. len) are laid out in [poses]. *)
  Definition laid_from (t : tree T) (q : list T) (i : nat) (poses : list (se3 T)) : Prop :=
    forall m j off, i <= m -> nth_error (tr_joints t) m = Some j -> config_offset t m = Some off ->
      exists local, joint_motion q off j = Ok local /\ nth_error poses m = Some (se3_compose (se3_compose (hangs_from t poses m) (jt_origin j)) local).
  Lemma place_cases mj mc t q i n poses : sound mj mc t -> length poses = mj -> all_readable t q -> i + n = tree_len t ->
    (exists poses', place_joints t q (seq i n) poses = Ok poses' /\ length poses' = mj /\ (forall m, m < i -> nth_error poses' m = nth_error poses m) /\ laid_from t q i poses') \/
    ((exists m j off, i <= m /\ nth_error (tr_joints t) m = Some j /\ config_offset t m = Some off /\ jt_kind j = Floating /\ joint_motion q off j = Err KiOrientationHasNoDirection) /\
      place_joints t q (seq i n) poses = Err KiOrientationHasNoDirection).
  Proof.
    intros SO L R. pose proof SO as (LP & LM & _ & _ & PA). revert i poses L. induction n as [|n IH]; intros i poses L E.
    - left. exists poses. split; [reflexivity|split; [exact L|split; [auto|]]]. intros m j off M J. assert (m < length (tr_joints t)) by (apply nth_error_Some; congruence). unfold tree_len in E. lia.
    - cbn [seq place_joints]. unfold tree_joint, tree_parent. destruct (nth_error (tr_joints t) i) as [j|] eqn:J; [|apply nth_error_None in J; unfold tree_len in E; lia].
      destruct (config_offset_some t i ltac:(lia)) as (off & O). cbn [ok_or bind].
      set (par := match nth_error (tr_parents t) i with Some (OnJoint p) => ok_or (nth_error poses p) KiParentOutOfOrder | _ => Ok se3_identity end).
      assert (PP : par = Ok (hangs_from t poses i)).
      { unfold par, hangs_from. destruct (nth_error (tr_parents t) i) as [[|p]|] eqn:P; try reflexivity. apply PA in P. rewrite (nth_error_nth' poses se3_identity) by lia. reflexivity. }
      rewrite PP, O. cbn [ok_or bind]. destruct (motion_cases q off j (R i j off J O)) as [(local & M)|[K M]]; rewrite M; cbn [bind].
      2: { right. split; [exists i, j, off; auto|reflexivity]. }
      rewrite (proj2 (Nat.ltb_lt i (length poses))) by lia. set (pose := se3_compose (se3_compose (hangs_from t poses i) (jt_origin j)) local).
      destruct (IH (S i) (set_nth poses i pose) ltac:(rewrite set_nth_length; exact L) ltac:(lia)) as [(poses' & -> & L' & OLD & NEW)|[(m & j' & off' & A & B) ->]].
      + left. exists poses'. split; [reflexivity|]. split; [exact L'|].
        assert (OLD' : forall m, m < i -> nth_error poses' m = nth_error poses m).
        { intros m H. rewrite OLD by lia. rewrite !(nth_error_nth' _ se3_identity) by (rewrite ?set_nth_length; lia). rewrite nth_set_nth_neq by lia. reflexivity. }
        split; [exact OLD'|]. intros m j' off' H J' O'. destruct (Nat.eq_dec m i) as [->|N]; [|apply (NEW m); auto; lia].
        rewrite J in J'. rewrite O in O'. injection J' as <-. injection O' as <-. exists local. split; [exact M|]. rewrite OLD by lia. rewrite (nth_error_nth' _ se3_identity) by (rewrite set_nth_length; lia). rewrite nth_set_nth_eq by lia. unfold pose. do 3 f_equal.
        unfold hangs_from. destruct (nth_error (tr_parents t) i) as [[|p]|] eqn:P; try reflexivity. apply PA in P. symmetry. apply (nth_error_nth poses' p). rewrite OLD' by lia. apply nth_error_nth'. lia.
      + right. split; [exists m, j', off'; split; [lia|exact B]|reflexivity].
  Qed.
  Definition laid_out (t : tree T) (q : list T) (poses : list (se3 T)) : Prop := length poses = tree_len t /\ laid_from t q 0 poses.
  Lemma forward_cases mj mc t q : sound mj mc t ->
    (~ all_readable t q /\ forward_kinematics mj q t = Err KiNonFinite) \/
    (all_readable t q /\ (exists m j off, nth_error (tr_joints t) m = Some j /\ config_offset t m = Some off /\ jt_kind j = Floating /\ joint_motion q off j = Err KiOrientationHasNoDirection) /\
      forward_kinematics mj q t = Err KiOrientationHasNoDirection) \/
    (all_readable t q /\ exists poses, forward_kinematics mj q t = Ok poses /\ laid_out t q poses).
  Proof.
    intros S. unfold forward_kinematics. destruct (check_readings_cases t q 0 (tree_len t) eq_refl) as [[A ->]|[A ->]]; cbn [bind].
    2: { left. split; [|reflexivity]. intros H. apply A. intros m j off _. apply (H m j off). }
    assert (A' : all_readable t q) by (intros i j off; apply A; lia).
    destruct (place_cases mj mc t q 0 (tree_len t) (repeat se3_identity mj) S (repeat_length _ _) A' eq_refl) as [(poses & -> & L & _ & N)|[(m & j & off & _ & H) ->]]; cbn [bind].
    - right. right. split; [exact A'|]. exists (firstn (tree_len t) poses). split; [reflexivity|]. destruct S as (LP & LM & _ & _ & PA). split; [apply firstn_length_le; lia|].
      assert (FN : forall k, k < tree_len t -> nth_error (firstn (tree_len t) poses) k = nth_error poses k).
      { intros k K. rewrite <- (firstn_skipn (tree_len t) poses) at 2. rewrite nth_error_app1; [reflexivity|]. rewrite firstn_length_le by lia. exact K. }
      intros m j off _ J O. destruct (N m j off ltac:(lia) J O) as (local & M & P). exists local. split; [exact M|]. assert (I : m < tree_len t) by (apply nth_error_Some; unfold tree_len; congruence). rewrite FN, P by exact I. do 3 f_equal.
      unfold hangs_from. destruct (nth_error (tr_parents t) m) as [[|p]|] eqn:Q; try reflexivity. apply PA in Q. symmetry. apply nth_error_nth. rewrite FN by lia. apply nth_error_nth'. lia.
    - right. left. split; [exact A'|]. split; [exists m, j, off; exact H|reflexivity].
  Qed.
  Lemma laid_unique mj mc t q poses poses' : sound mj mc t -> laid_out t q poses -> laid_out t q poses' -> poses = poses'.
  Proof.
    intros (_ & _ & _ & _ & PA) [L A] [L' A'].
    assert (E : forall i, i < tree_len t -> nth_error poses i = nth_error poses' i).
    { intros i. induction i as [i IH] using (well_founded_induction lt_wf). intros I. destruct (nth_error (tr_joints t) i) as [j|] eqn:J; [|apply nth_error_None in J; unfold tree_len in I; lia].
      destruct (config_offset_some t i I) as (off & O). destruct (A i j off ltac:(lia) J O) as (l & M & ->), (A' i j off ltac:(lia) J O) as (l' & M' & ->). rewrite M in M'. injection M' as <-. do 3 f_equal.
      unfold hangs_from. destruct (nth_error (tr_parents t) i) as [[|p]|] eqn:P; try reflexivity. apply PA in P. assert (X := IH p P ltac:(lia)). rewrite !(nth_error_nth' _ se3_identity) in X by lia. injection X as X. exact X. }
    apply nth_ext with (d := se3_identity) (d' := se3_identity); [congruence|]. intros n N. specialize (E n ltac:(lia)). rewrite !(nth_error_nth' _ se3_identity) in E by lia. injection E as E. exact E.
  Qed.
End Any.

Section Offsets.
  Context {T : Type} {NT : Num T}.
  Lemma total_step {A} (f : A -> nat) l i a : nth_error l i = Some a -> total f (firstn (S i) l) = total f (firstn i l) + f a.
  Proof.
    revert i. induction l as [|b l IH]; intros [|i] H; try discriminate; cbn in H.
    - injection H as ->. cbn. lia.
    - specialize (IH i H). unfold total in *. cbn [firstn fold_right] in *. rewrite IH. lia.
  Qed.
  Lemma total_mono {A} (f : A -> nat) l i i' : i <= i' -> total f (firstn i l) <= total f (firstn i' l).
  Proof.
    revert i i'. induction l as [|b l IH]; intros i i' H; [rewrite !firstn_nil; lia|]. destruct i as [|i]; [cbn; lia|]. destruct i' as [|i']; [lia|]. cbn [firstn]. unfold total in *. cbn [fold_right]. specialize (IH i i' ltac:(lia)). lia.
  Qed.
  Lemma index_lt (t : tree T) i j : nth_error (tr_joints t) i = Some j -> i < tree_len t.
  Proof. intros H. apply nth_error_Some. congruence. Qed.
  Lemma config_fits mj mc (t : tree T) i j off : built mj mc t -> nth_error (tr_joints t) i = Some j -> config_offset t i = Some off -> off + readings_of j <= config_len t.
  Proof.
    intros B J O. pose proof (index_lt t i j J) as I. destruct (offsets_total mj mc t i B I) as [E _]. rewrite E in O. injection O as <-. rewrite (proj1 (lens_total mj mc t B)), <- (total_step readings_of _ _ _ J).
    rewrite <- (firstn_all (tr_joints t)) at 2. apply total_mono. exact I.
  Qed.
  Lemma velocity_fits mj mc (t : tree T) i j from : built mj mc t -> nth_error (tr_joints t) i = Some j -> velocity_offset t i = Some from -> from + rates_of j <= velocity_len t.
  Proof.
    intros B J O. pose proof (index_lt t i j J) as I. destruct (offsets_total mj mc t i B I) as [_ E]. rewrite E in O. injection O as <-. rewrite (proj2 (lens_total mj mc t B)), <- (total_step rates_of _ _ _ J).
    rewrite <- (firstn_all (tr_joints t)) at 2. apply total_mono. exact I.
  Qed.
  Lemma velocity_next mj mc (t : tree T) i j from from' : built mj mc t -> nth_error (tr_joints t) i = Some j -> velocity_offset t i = Some from -> velocity_offset t (S i) = Some from' -> from' = from + rates_of j.
  Proof.
    intros B J O O'. pose proof (index_lt t i j J) as I. destruct (offsets_total mj mc t i B I) as [_ E]. rewrite E in O. injection O as <-.
    assert (I' : S i < tree_len t) by (unfold velocity_offset in O'; destruct (Nat.leb_spec (tree_len t) (S i)); [discriminate|assumption]).
    destruct (offsets_total mj mc t (S i) B I') as [_ E']. rewrite E' in O'. injection O' as <-. apply total_step, J.
  Qed.
  Lemma velocity_offset_some (t : tree T) i : i < tree_len t -> exists from, velocity_offset t i = Some from.
  Proof. intros H. unfold velocity_offset. rewrite (proj2 (Nat.leb_gt _ _) H). destruct (_ && _); eexists; reflexivity. Qed.
  Lemma velocity_len_le mj mc (t : tree T) : built mj mc t -> velocity_len t <= mc.
  Proof.
    intros B. destruct (built_sound mj mc t B) as (_ & _ & C & _). destruct (lens_total mj mc t B) as [E1 E2]. rewrite E1 in C. rewrite E2. clear - C. revert mc C. induction (tr_joints t) as [|j l IH]; intros mc C; unfold total in *; cbn [fold_right] in *; [lia|].
    assert (rates_of j <= readings_of j) by (unfold rates_of, readings_of; destruct (jt_kind j); lia). specialize (IH (mc - readings_of j) ltac:(lia)). lia.
  Qed.

  (** The walk from a joint to the world *)
  Fixpoint chain (t : tree T) (fuel k : nat) : list nat :=
    match fuel with O => [] | S f => k :: match nth_error (tr_parents t) k with Some (OnJoint p) => chain t f p | _ => [] end end.
  Lemma chain_carried (t : tree T) fuel k i : In i (chain t fuel k) -> carried_by t k i.
  Proof.
    revert k. induction fuel as [|f IH]; intros k; [contradiction|]. cbn [chain]. intros [->|H]; [constructor|]. destruct (nth_error (tr_parents t) k) as [[|p]|] eqn:P; try contradiction. econstructor; [exact P|apply IH, H].
  Qed.
  Section Decreasing.
    Context (t : tree T) (PA : forall i p, nth_error (tr_parents t) i = Some (OnJoint p) -> p < i).
    Lemma chain_fuel f f' k : k < f -> k < f' -> chain t f k = chain t f' k.
    Proof using PA.
      revert f' k. induction f as [|f IH]; intros f' k H H'; [lia|]. destruct f' as [|f']; [lia|]. cbn [chain]. f_equal. destruct (nth_error (tr_parents t) k) as [[|p]|] eqn:P; auto. apply PA in P. apply IH; lia.
    Qed.
    Lemma chain_below f k i : In i (chain t f k) -> i <= k.
    Proof using PA.
      revert k. induction f as [|f IH]; intros k; [contradiction|]. cbn [chain]. intros [->|H]; [lia|]. destruct (nth_error (tr_parents t) k) as [[|p]|] eqn:P; try contradiction. apply PA in P. apply IH in H. lia.
    Qed.
    Lemma mark_chain_spec mj steps cur carries : length carries = mj -> cur < mj ->
      exists c, mark_chain t steps cur carries = Ok c /\ length c = mj /\ forall i, nth i c false = (nth i carries false || existsb (Nat.eqb i) (chain t steps cur))%bool.
    Proof using PA.
      revert cur carries. induction steps as [|st IH]; intros cur carries L C; cbn [mark_chain chain].
      { exists carries. split; [reflexivity|split; [exact L|]]. intros i. cbn. rewrite orb_false_r. reflexivity. }
      rewrite (proj2 (Nat.ltb_lt _ _)) by lia. unfold tree_parent.
      assert (E : forall i, nth i (set_nth carries cur true) false = (nth i carries false || Nat.eqb i cur)%bool).
      { intros i. destruct (Nat.eqb_spec i cur) as [->|N]; [rewrite nth_set_nth_eq by lia; rewrite orb_true_r; reflexivity|rewrite nth_set_nth_neq by lia; rewrite orb_false_r; reflexivity]. }
      destruct (nth_error (tr_parents t) cur) as [[|p]|] eqn:P.
      - exists (set_nth carries cur true). split; [reflexivity|]. rewrite set_nth_length. split; [exact L|]. intros i. rewrite E. cbn. rewrite orb_false_r. reflexivity.
      - apply PA in P. destruct (IH p (set_nth carries cur true)) as (c & -> & LC & EC); [rewrite set_nth_length; exact L|lia|]. exists c. split; [reflexivity|split; [exact LC|]]. intros i. rewrite EC, E. cbn [existsb]. apply eq_sym, orb_assoc.
      - exists (set_nth carries cur true). split; [reflexivity|]. rewrite set_nth_length. split; [exact L|]. intros i. rewrite E. cbn. rewrite orb_false_r. reflexivity.
    Qed.
  End Decreasing.
End Offsets.

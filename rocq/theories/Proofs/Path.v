(** Polyline paths: how they are stored, and what the two searches along them find. *)
From Coq Require Import ZArith Reals Lra Lia List Bool Psatz.
From Verif Require Import Base.Scalar Base.RNum Base.Lists Base.Series Model.Errors Model.Vector Model.Motion Spec.Motion Proofs.Vector.
Import ListNotations.

Section AnyScalar.
  Context {T : Type} {NT : Num T}.
  Local Open Scope num_scope.

  Fixpoint running (acc : T) (previous : list T) (rest : list (list T)) : list T :=
    match rest with
    | [] => []
    | b :: r => (acc + norm (vec_sub b previous)) :: running (acc + norm (vec_sub b previous)) b r
    end.
  Definition cums (points : list (list T)) : list T :=
    match points with [] => [] | p :: r => zero :: running zero p r end.
  (** The path that holds these waypoints. *)
  Definition stored (max_points dimension : nat) (points : list (list T)) (mode : EndOfPath) : Path := {|
    pa_points := points ++ repeat (vec_zeros dimension) (max_points - length points);
    pa_cumulative := cums points ++ repeat zero (max_points - length points);
    pa_length := length points; pa_end := mode
  |}.

  Lemma running_length acc p r : length (running acc p r) = length r.
  Proof. revert acc p. induction r; intros; cbn; auto. Qed.
  Lemma cums_length pts : length (cums pts) = length pts.
  Proof. destruct pts; cbn; auto. rewrite running_length. reflexivity. Qed.
  Lemma last_cons_ne {A} (l : list A) a b d : last (a :: b :: l) d = last (b :: l) d.
  Proof. reflexivity. Qed.
  Lemma last_default {A} (l : list A) a d d' : last (a :: l) d = last (a :: l) d'.
  Proof. revert a. induction l as [| b l IH]; intros a; [reflexivity |]. rewrite !last_cons_ne. apply IH. Qed.
  Lemma running_snoc r : forall acc p x,
    running acc p (r ++ [x]) = running acc p r ++ [last (running acc p r) acc + norm (vec_sub x (last r p))].
  Proof.
    induction r as [| b r IH]; intros acc p x; [reflexivity |]. rewrite <- app_comm_cons. cbn [running].
    rewrite IH. cbn [app]. f_equal. f_equal. f_equal. f_equal.
    - destruct r as [| l r]; [reflexivity |]. cbn [running]. rewrite last_cons_ne. apply last_default.
    - destruct r as [| l r]; [reflexivity |]. rewrite last_cons_ne. f_equal. f_equal. apply last_default.
  Qed.
  Lemma set_nth_middle {A} (pre : list A) x t v : set_nth (pre ++ x :: t) (length pre) v = pre ++ v :: t.
  Proof. induction pre; cbn; congruence. Qed.

  Lemma fill_slots_spec following : forall previous acc pre cpre z m, length pre = length cpre -> (length following <= m)%nat ->
    fill_slots previous following (length pre) acc (pre ++ repeat z m) (cpre ++ repeat zero m) =
      ((pre ++ following) ++ repeat z (m - length following),
       (cpre ++ running acc previous following) ++ repeat zero (m - length following)).
  Proof.
    induction following as [| b r IH]; intros previous acc pre cpre z m L H; cbn [fill_slots running length] in *.
    - rewrite !app_nil_r, Nat.sub_0_r. reflexivity.
    - destruct m as [| m]; [lia |]. cbn [repeat]. rewrite set_nth_middle. rewrite L at 2. rewrite set_nth_middle.
      set (acc' := acc + norm (vec_sub b previous)).
      replace (pre ++ b :: repeat z m) with ((pre ++ [b]) ++ repeat z m) by (rewrite <- app_assoc; reflexivity).
      replace (cpre ++ acc' :: repeat zero m) with ((cpre ++ [acc']) ++ repeat zero m) by (rewrite <- app_assoc; reflexivity).
      replace (S (length pre)) with (length (pre ++ [b])) by (rewrite app_length; cbn; lia).
      rewrite IH; [| rewrite !app_length; cbn; lia | lia]. cbn [Nat.sub].
      rewrite <- !app_assoc. reflexivity.
  Qed.

  Lemma try_from_points_spec max_points dimension points :
    path_try_from_points max_points dimension points =
      if Nat.ltb max_points (length points) then Err MoCapacityExceeded
      else if existsb (fun point => negb (vec_is_finite point)) points then Err MoNonFinite
      else Ok (stored max_points dimension points Stop).
  Proof.
    unfold path_try_from_points. destruct (Nat.ltb max_points (length points)) eqn:E; [reflexivity |].
    apply Nat.ltb_ge in E. destruct (existsb _ points); [reflexivity |].
    destruct points as [| p r].
    - unfold path_new, stored. cbn. rewrite Nat.sub_0_r. reflexivity.
    - cbn [length] in E. destruct max_points as [| m]; [lia |]. cbn [path_new pa_points pa_cumulative repeat set_nth].
      pose proof (fill_slots_spec r p zero [p] [zero] (vec_zeros dimension) m eq_refl ltac:(lia)) as F.
      cbn [length app] in F. rewrite F. unfold stored. cbn. reflexivity.
  Qed.

  Lemma cums_snoc pts x : pts <> [] ->
    cums (pts ++ [x]) = cums pts ++ [last (cums pts) zero + norm (vec_sub x (last pts []))].
  Proof.
    destruct pts as [| p r]; [tauto |]. intros _. cbn [app cums]. rewrite running_snoc. cbn [app]. f_equal. f_equal. f_equal. f_equal.
    - destruct (running zero p r) eqn:E; [reflexivity |]. rewrite last_cons_ne. reflexivity.
    - destruct r; [reflexivity |]. rewrite last_cons_ne. f_equal. f_equal. apply last_default.
  Qed.

  Lemma nth_error_last {A} (l : list A) d : l <> [] -> nth_error l (length l - 1) = Some (last l d).
  Proof.
    intros H. destruct (exists_last H) as (r & x & ->). rewrite last_last, app_length. cbn [length].
    replace (length r + 1 - 1)%nat with (length r + 0)%nat by lia. rewrite nth_error_app2 by lia.
    replace (length r + 0 - length r)%nat with 0%nat by lia. reflexivity.
  Qed.

  Lemma push_spec max_points dimension points mode point : (length points <= max_points)%nat ->
    path_push max_points (stored max_points dimension points mode) point =
      if Nat.eqb (length points) max_points then Err MoCapacityExceeded
      else if negb (vec_is_finite point) then Err MoNonFinite
      else Ok (stored max_points dimension (points ++ [point]) mode).
  Proof.
    intros H. unfold path_push. cbn [pa_length stored].
    destruct (Nat.eqb (length points) max_points) eqn:E; [reflexivity |]. apply Nat.eqb_neq in E.
    destruct (vec_is_finite point); cbn [negb]; [| reflexivity].
    set (free := (max_points - length points)%nat).
    assert (F : free = S (max_points - length (points ++ [point]))) by (unfold free; rewrite app_length; cbn; lia).
    assert (N1 : nth_error (points ++ repeat (vec_zeros dimension) free) (length points) = Some (vec_zeros dimension)).
    { rewrite nth_error_app2 by lia. rewrite Nat.sub_diag, F. reflexivity. }
    assert (N2 : nth_error (cums points ++ repeat zero free) (length points) = Some zero).
    { rewrite <- (cums_length points), nth_error_app2 by lia. rewrite Nat.sub_diag, F. reflexivity. }
    assert (S1 : set_nth (points ++ repeat (vec_zeros dimension) free) (length points) point =
      (points ++ [point]) ++ repeat (vec_zeros dimension) (max_points - length (points ++ [point]))).
    { rewrite F. cbn [repeat]. rewrite set_nth_middle, <- app_assoc. reflexivity. }
    assert (S2 : forall acc, set_nth (cums points ++ repeat zero free) (length points) acc =
      (cums points ++ [acc]) ++ repeat zero (max_points - length (points ++ [point]))).
    { intros acc. rewrite F. cbn [repeat]. rewrite <- (cums_length points) at 1. rewrite set_nth_middle, <- app_assoc. reflexivity. }
    cbn [pa_points pa_cumulative stored]. fold free. rewrite N1, N2.
    destruct (Nat.eqb (length points) 0) eqn:E0.
    - destruct points; [| discriminate]. unfold stored. f_equal. f_equal.
      + apply S1.
      + rewrite S2. reflexivity.
    - apply Nat.eqb_neq in E0. assert (NE : points <> []) by (destruct points; cbn in *; congruence).
      rewrite nth_error_app1 by lia. rewrite nth_error_app1 by (rewrite cums_length; lia).
      rewrite (nth_error_last points [] NE). rewrite <- (cums_length points) at 1.
      rewrite (nth_error_last (cums points) zero) by (intros Q; apply NE; destruct points; [reflexivity | discriminate]).
      unfold stored. f_equal. f_equal; cbn [pa_end].
      + apply S1.
      + rewrite S2. rewrite cums_snoc by auto. reflexivity.
      + rewrite app_length; cbn; lia.
  Qed.

  Lemma waypoints_stored m dim pts mode : waypoints (stored m dim pts mode) = pts.
  Proof.
    unfold waypoints, stored; cbn. rewrite app_length. rewrite (proj2 (Nat.leb_le _ _)) by lia.
    rewrite firstn_app, Nat.sub_diag, firstn_all. cbn. apply app_nil_r.
  Qed.
  Lemma total_stored m dim pts mode : total_arc_length (stored m dim pts mode) = last (cums pts) zero.
  Proof.
    unfold total_arc_length, stored; cbn. destruct pts as [| p r]; [reflexivity |].
    cbn [length Nat.eqb]. rewrite nth_error_app1 by (rewrite cums_length; cbn; lia).
    replace (S (length r)) with (length (cums (p :: r))) by apply cums_length.
    rewrite (nth_error_last (cums (p :: r)) zero) by discriminate. reflexivity.
  Qed.
End AnyScalar.

Local Open Scope R_scope.

(** Running totals are lengths before. *)
Lemma running_spec dim : forall r p acc k, length p = dim -> Forall (fun q => length q = dim) r -> (k < length r)%nat ->
  nth_error (running acc p r) k = Some (acc + length_before (p :: r) (S k)).
Proof.
  induction r as [| b r IH]; intros p acc k Hp Hr Hk; cbn [length] in Hk; [lia |].
  inversion Hr; subst. cbn [running]. rnum. rewrite norm_distance by congruence.
  rewrite distance_sym by congruence.
  destruct k as [| k]; cbn [nth_error].
  - unfold length_before. cbn. f_equal. ring.
  - rewrite (IH b _ k) by (auto; lia). f_equal. unfold length_before. rewrite (bsum_first (S k)). cbn. ring.
Qed.
Lemma cums_spec dim pts k : Forall (fun q => length q = dim) pts -> (k < length pts)%nat ->
  nth_error (cums pts) k = Some (length_before pts k).
Proof.
  intros H L. destruct pts as [| p r]; cbn [length] in L; [lia |]. inversion H; subst. cbn [cums].
  destruct k as [| k]; [reflexivity |]. cbn [nth_error].
  rewrite (running_spec (length p)) by (auto; lia). f_equal. rnum. ring.
Qed.
Lemma total_spec dim pts : Forall (fun q => length q = dim) pts -> last (cums pts) 0 = length_before pts (length pts - 1).
Proof.
  intros H. destruct pts as [| p r]; [reflexivity |].
  assert (E : nth_error (cums (p :: r)) (length (cums (p :: r)) - 1) = Some (last (cums (p :: r)) 0)) by (apply nth_error_last; discriminate).
  rewrite cums_length in E. rewrite (cums_spec dim) in E by (auto; cbn; lia). congruence.
Qed.

Lemma length_before_S pts k a b : piece pts k a b -> length_before pts (S k) = length_before pts k + distance_between a b.
Proof.
  intros [H1 H2]. unfold length_before. cbn [bsum]. f_equal.
  rewrite (nth_error_nth _ _ [] H1), (nth_error_nth _ _ [] H2). reflexivity.
Qed.
Lemma length_before_mono pts i j : (i <= j)%nat -> length_before pts i <= length_before pts j.
Proof.
  induction 1; [lra |]. unfold length_before in *. cbn [bsum].
  pose proof (distance_nonneg (nth m pts []) (nth (S m) pts [])). lra.
Qed.

Section Searches.
  Variables (dim : nat) (pts : list (list R)) (cumulative : list R) (query : list R).
  Hypothesis Hdim : Forall (fun q => length q = dim) pts.
  Hypothesis Hq : length query = dim.
  Hypothesis Hcum : forall k, (k < length pts)%nat -> nth_error cumulative k = Some (length_before pts k).

  Lemma piece_at pre a b rest : pts = pre ++ a :: b :: rest -> piece pts (length pre) a b /\ length a = dim /\ length b = dim.
  Proof.
    intros E. assert (P : piece pts (length pre) a b).
    { unfold piece. rewrite E. split; [rewrite nth_error_app2, Nat.sub_diag by lia; reflexivity |].
      rewrite nth_error_app2 by lia. replace (S (length pre) - length pre)%nat with 1%nat by lia. reflexivity. }
    split; [exact P |]. rewrite Forall_forall in Hdim. destruct P as [P1 P2].
    split; apply Hdim; eapply nth_error_In; eauto.
  Qed.

  (** The best of the first [k] pieces. *)
  Definition best_of (k : nat) (best : option Projection) : Prop :=
    match best with
    | None => k = 0%nat
    | Some p => (pj_segment p < k)%nat /\ on_path pts (pj_segment p) (pj_arc_length p) (pj_point p) /\
        pj_distance p = distance_between query (pj_point p) /\
        forall k' s x, (k' < k)%nat -> on_path pts k' s x -> pj_distance p <= distance_between query x /\
          (distance_between query x = pj_distance p -> (pj_segment p <= k')%nat)
    end.

  Lemma closest_loop_spec following : forall pre a best, pts = pre ++ a :: following -> best_of (length pre) best ->
    exists r, closest_loop cumulative query a following (length pre) best = Ok r /\ best_of (length pre + length following) r.
  Proof.
    induction following as [| b rest IH]; intros pre a best E HB.
    - cbn. rewrite Nat.add_0_r. eauto.
    - destruct (piece_at pre a b rest E) as (P & La & Lb).
      cbn [closest_loop]. rnum. set (dir := vec_sub b a).
      assert (Ldir : length dir = dim) by (unfold dir; rewrite sub_length; congruence).
      assert (CAND : exists candidate parameter,
        (if Reqb (norm_squared dir) 0 then (a, 0)
         else (vec_add a (vec_scale dir (Rmin (Rmax (dot (vec_sub query a) dir / norm_squared dir) 0) 1)),
               Rmin (Rmax (dot (vec_sub query a) dir / norm_squared dir) 0) 1)) = (candidate, parameter) /\
        0 <= parameter <= 1 /\ along a b parameter candidate /\
        forall lambda x, 0 <= lambda <= 1 -> along a b lambda x -> distance_between query candidate <= distance_between query x).
      { destruct (Reqb (norm_squared dir) 0) eqn:Z; rcases.
        - exists a, 0. split; [reflexivity |]. split; [lra |]. split; [apply along_start |].
          intros lambda x _ Hx. replace x with a; [lra |]. apply (along_unique a b lambda); auto.
          split; auto. intros i. pose proof (norm_squared_zero dir Z i) as D. unfold dir in D. rewrite nth_sub in D by congruence.
          rewrite D. ring.
        - eexists; eexists. split; [reflexivity |]. split.
          + unfold Rmin, Rmax. destruct (Rle_dec _ 0); destruct (Rle_dec _ 1); lra.
          + split; [apply along_point; congruence |]. intros lambda x Hl Hx.
            eapply (foot_closest query a b x); eauto; try congruence. apply along_point. congruence. }
      destruct CAND as (candidate & parameter & -> & Hp & Ha & Hmin).
      rewrite (norm_distance query candidate) by (destruct Ha; congruence).
      assert (Enorm : norm dir = distance_between a b).
      { unfold dir. rewrite norm_distance by congruence. apply distance_sym. congruence. }
      assert (Lpre : (length pre < length pts)%nat) by (rewrite E, app_length; cbn; lia).
      rewrite (Hcum _ Lpre), Enorm.
      assert (ON : on_path pts (length pre) (length_before pts (length pre) + distance_between a b * parameter) candidate).
      { exists a, b, parameter. split; [exact P |]. split; [exact Hp |]. split; [exact Ha |]. ring. }
      assert (HERE : forall s x, on_path pts (length pre) s x -> distance_between query candidate <= distance_between query x).
      { intros s x (a' & b' & lambda & [P1 P2] & Hl & Hx & _). destruct P as [Q1 Q2].
        assert (a' = a) by congruence. assert (b' = b) by congruence. subst. eapply Hmin; eauto. }
      assert (NEXT : forall best', best_of (S (length pre)) best' -> exists r,
        closest_loop cumulative query b rest (S (length pre)) best' = Ok r /\ best_of (length pre + S (length rest)) r).
      { intros best' HB'. destruct (IH (pre ++ [a]) b best') as (r & Er & Hr).
        - rewrite <- app_assoc. exact E.
        - rewrite app_length, Nat.add_1_r. exact HB'.
        - rewrite app_length, Nat.add_1_r in Er, Hr. exists r. split; [exact Er |].
          replace (length pre + S (length rest))%nat with (S (length pre) + length rest)%nat by lia. exact Hr. }
      destruct best as [cur |]; cbn [best_of] in HB.
      + destruct HB as (B1 & B2 & B3 & B4).
        destruct (Rltb (distance_between query candidate) (pj_distance cur)) eqn:C; rcases.
        * apply NEXT. cbn. split; [lia |]. split; [exact ON |]. split; [reflexivity |].
          intros k' s x Hk Hx. destruct (Nat.eq_dec k' (length pre)) as [-> | Ne].
          -- split; [eapply HERE; eauto | lia].
          -- destruct (B4 k' s x ltac:(lia) Hx) as [Q1 Q2]. split; [lra |]. intros; lra.
        * apply NEXT. cbn. split; [lia |]. split; [exact B2 |]. split; [exact B3 |].
          intros k' s x Hk Hx. destruct (Nat.eq_dec k' (length pre)) as [-> | Ne].
          -- pose proof (HERE _ _ Hx). split; [lra | lia].
          -- apply (B4 k' s x); auto; lia.
      + apply NEXT. cbn. split; [lia |]. split; [exact ON |]. split; [reflexivity |].
        intros k' s x Hk Hx. assert (k' = length pre) by lia. subst. split; [eapply HERE; eauto | lia].
  Qed.

  Lemma lookahead_loop_spec target following : forall pre a, pts = pre ++ a :: following ->
    (exists k a' b' lambda x, lookahead_loop cumulative target a following (length pre) = Ok (Some x) /\
       piece pts k a' b' /\ (length pre <= k)%nat /\ 0 < distance_between a' b' /\ lambda <= 1 /\ along a' b' lambda x /\
       (lambda <= 0 -> length_before pts k = length_before pts (length pre)) /\
       target = length_before pts k + lambda * distance_between a' b') \/
    (lookahead_loop cumulative target a following (length pre) = Ok None /\
       (length_before pts (length pre + length following) < target \/
        length_before pts (length pre + length following) = length_before pts (length pre))).
  Proof.
    induction following as [| b rest IH]; intros pre a E.
    - right. cbn. rewrite Nat.add_0_r. auto.
    - destruct (piece_at pre a b rest E) as (P & La & Lb).
      cbn [lookahead_loop]. rnum. set (dir := vec_sub b a).
      assert (Enorm : norm dir = distance_between a b).
      { unfold dir. rewrite norm_distance by congruence. apply distance_sym. congruence. }
      assert (Lpre : (length pre < length pts)%nat) by (rewrite E, app_length; cbn; lia).
      pose proof (length_before_S _ _ _ _ P) as LS. pose proof (distance_nonneg a b) as DN.
      rewrite Enorm, (Hcum _ Lpre).
      specialize (IH (pre ++ [a]) b ltac:(rewrite <- app_assoc; exact E)). rewrite app_length, Nat.add_1_r in IH.
      replace (length pre + length (b :: rest))%nat with (S (length pre) + length rest)%nat by (cbn; lia).
      destruct (Reqb (distance_between a b) 0) eqn:Z; rcases.
      + rewrite Z, Rplus_0_r in LS. rewrite LS in IH. destruct IH as [(k & a' & b' & lambda & x & I1 & I2 & I3 & I4) | [I1 I2]].
        * left. exists k, a', b', lambda, x. split; [exact I1 |]. split; [exact I2 |]. split; [lia |]. exact I4.
        * right. split; [exact I1 |]. exact I2.
      + destruct (Rleb target (length_before pts (length pre) + distance_between a b)) eqn:C; rcases.
        * left. exists (length pre), a, b, ((target - length_before pts (length pre)) / distance_between a b). eexists.
          split; [reflexivity |]. split; [exact P |]. split; [lia |]. split; [lra |].
          split; [apply (Rmult_le_reg_r (distance_between a b)); [lra |]; unfold Rdiv; rewrite Rmult_assoc, Rinv_l by auto; lra |].
          split; [apply along_point; congruence |]. split; [reflexivity |]. field. auto.
        * destruct IH as [(k & a' & b' & lambda & x & I1 & I2 & I3 & I4 & I5 & I6 & I7 & I8) | [I1 I2]].
          -- left. exists k, a', b', lambda, x. split; [exact I1 |]. split; [exact I2 |]. split; [lia |]. split; [exact I4 |].
             split; [exact I5 |]. split; [exact I6 |]. split; [| exact I8]. intros Hl. exfalso.
             specialize (I7 Hl). rewrite LS in I7. rewrite I7 in I8. nra.
          -- right. split; [exact I1 |]. left. destruct I2 as [I2 | I2]; [exact I2 |]. rewrite I2, LS. lra.
  Qed.
End Searches.

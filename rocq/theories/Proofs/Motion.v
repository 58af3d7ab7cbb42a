(** Lemmas behind the motion-profile properties (Props/Motion.v): a profile is a chain of cubics. *)
From Coq Require Import Reals Lra Lia List Bool Psatz.
From Coquelicot Require Import Coquelicot.
From Verif Require Import Base.Scalar Base.RNum Base.Deriv Base.Lists Base.Series Model.Errors Model.Vector Model.Motion Spec.Motion.
Import ListNotations.
Local Open Scope R_scope.

(** * Gluing *)
Lemma derive_glue (f g h : R -> R) (c t l : R) :
  (forall x, x < c -> f x = g x) -> (forall x, c <= x -> f x = h x) -> g c = h c ->
  (t <= c -> is_derive g t l) -> (c <= t -> is_derive h t l) -> is_derive f t l.
Proof.
  intros Hg Hh E Dg Dh.
  destruct (Rtotal_order t c) as [L | [L | L]].
  - apply (is_derive_ext_loc g); [| apply Dg; lra].
    exists (mkposreal (c - t) ltac:(lra)). intros y Hy.
    unfold ball in Hy; simpl in Hy; unfold AbsRing_ball, abs, minus, plus, opp in Hy; simpl in Hy.
    apply Rabs_def2 in Hy. symmetry; apply Hg; lra.
  - subst t. specialize (Dg ltac:(lra)). specialize (Dh ltac:(lra)).
    apply is_derive_Reals. apply is_derive_Reals in Dg. apply is_derive_Reals in Dh.
    intros eps He. destruct (Dg eps He) as [d1 H1]. destruct (Dh eps He) as [d2 H2].
    exists (mkposreal (Rmin d1 d2) ltac:(apply Rmin_pos; apply cond_pos)).
    intros k Hk Hd. simpl in Hd.
    destruct (Rlt_dec k 0) as [N | N].
    + rewrite (Hg (c + k)) by lra. rewrite (Hh c) by lra. rewrite <- E. apply H1; auto.
      eapply Rlt_le_trans; [exact Hd | apply Rmin_l].
    + rewrite (Hh (c + k)) by lra. rewrite (Hh c) by lra. apply H2; auto.
      eapply Rlt_le_trans; [exact Hd | apply Rmin_r].
  - apply (is_derive_ext_loc h); [| apply Dh; lra].
    exists (mkposreal (t - c) ltac:(lra)). intros y Hy.
    unfold ball in Hy; simpl in Hy; unfold AbsRing_ball, abs, minus, plus, opp in Hy; simpl in Hy.
    apply Rabs_def2 in Hy. symmetry; apply Hh; lra.
Qed.

(** * One phase *)
Definition cubic (ph : Phase (T := R)) (e : R) : R :=
  ph_position ph + ph_velocity ph * e + ph_acceleration ph * e * e * / 2 + ph_jerk ph * e * e * e / 6.
Definition quadratic (ph : Phase (T := R)) (e : R) : R :=
  ph_velocity ph + ph_acceleration ph * e + ph_jerk ph * e * e * / 2.
Definition linear (ph : Phase (T := R)) (e : R) : R := ph_acceleration ph + ph_jerk ph * e.

Lemma cubic_derive ph s t : is_derive (fun x => cubic ph (x - s)) t (quadratic ph (t - s)).
Proof. unfold cubic, quadratic. auto_derive; auto. field. Qed.
Lemma quadratic_derive ph s t : is_derive (fun x => quadratic ph (x - s)) t (linear ph (t - s)).
Proof. unfold linear, quadratic. auto_derive; auto. field. Qed.
Lemma linear_derive ph s t : is_derive (fun x => linear ph (x - s)) t (ph_jerk ph).
Proof. unfold linear. auto_derive; auto. field. Qed.

(** * The chain *)
Fixpoint Pos (l : list (Phase (T := R))) (d s t : R) : R :=
  match l with
  | [] => d
  | ph :: r => if Rlt_dec t (s + ph_duration ph) then cubic ph (t - s) else Pos r d (s + ph_duration ph) t
  end.
Fixpoint Vel (l : list (Phase (T := R))) (s t : R) : R :=
  match l with
  | [] => 0
  | ph :: r => if Rlt_dec t (s + ph_duration ph) then quadratic ph (t - s) else Vel r (s + ph_duration ph) t
  end.
Fixpoint Acc (l : list (Phase (T := R))) (s t : R) : R :=
  match l with
  | [] => 0
  | ph :: r => if Rlt_dec t (s + ph_duration ph) then linear ph (t - s) else Acc r (s + ph_duration ph) t
  end.
Fixpoint Jrk (l : list (Phase (T := R))) (s t : R) : R :=
  match l with
  | [] => 0
  | ph :: r => if Rlt_dec t (s + ph_duration ph) then ph_jerk ph else Jrk r (s + ph_duration ph) t
  end.

Lemma state_loop_chain l d s t :
  state_loop l s t =
    match state_loop l s t with None => None | Some _ =>
      Some {| ms_position := Pos l d s t; ms_velocity := Vel l s t; ms_acceleration := Acc l s t; ms_jerk := Jrk l s t |}
    end /\
  (state_loop l s t = None -> Pos l d s t = d /\ Vel l s t = 0 /\ Acc l s t = 0 /\ Jrk l s t = 0).
Proof.
  revert s. induction l as [| ph r IH]; intros s; cbn [state_loop Pos Vel Acc Jrk].
  - split; auto.
  - rnum. destruct (Rltb t (s + ph_duration ph)) eqn:E; rcases.
    + destruct (Rlt_dec t (s + ph_duration ph)) as [L | L]; [| lra].
      split; [| discriminate]. unfold advance_position, advance_velocity, cubic, quadratic, linear. rnum. reflexivity.
    + destruct (Rlt_dec t (s + ph_duration ph)) as [L | L]; [lra |]. apply IH.
Qed.

Fixpoint smooth (l : list (Phase (T := R))) (p v d : R) : Prop :=
  match l with
  | [] => p = d /\ v = 0
  | ph :: r => 0 <= ph_duration ph /\ ph_position ph = p /\ ph_velocity ph = v /\
               smooth r (cubic ph (ph_duration ph)) (quadratic ph (ph_duration ph)) d
  end.
Fixpoint smooth_acc (l : list (Phase (T := R))) (a : R) : Prop :=
  match l with
  | [] => a = 0
  | ph :: r => ph_acceleration ph = a /\ smooth_acc r (linear ph (ph_duration ph))
  end.

Lemma smooth_start l : forall p v d s, smooth l p v d -> Pos l d s s = p /\ Vel l s s = v.
Proof.
  induction l as [| ph r IH]; intros p v d s H; cbn [smooth Pos Vel] in *.
  - lra.
  - destruct H as (H0 & Hp & Hv & H). destruct (Rlt_dec s (s + ph_duration ph)) as [L | L].
    + unfold cubic, quadratic. rewrite Hp, Hv. split; field.
    + assert (E : ph_duration ph = 0) by lra. rewrite E in *. replace (s + 0) with s by ring.
      destruct (IH _ _ _ s H) as [E1 E2]. rewrite E1, E2. unfold cubic, quadratic. rewrite Hp, Hv. split; field.
Qed.
Lemma smooth_acc_start l : forall p v d a s, smooth l p v d -> smooth_acc l a -> Acc l s s = a.
Proof.
  induction l as [| ph r IH]; intros p v d a s Hs H; cbn [smooth smooth_acc Acc] in *; [lra |].
  destruct Hs as (H0 & Hp & Hv & Hs). destruct H as [Ha H].
  destruct (Rlt_dec s (s + ph_duration ph)) as [L | L].
  - unfold linear. rewrite Ha. ring.
  - assert (E : ph_duration ph = 0) by lra. rewrite E in *. replace (s + 0) with s by ring.
    rewrite (IH _ _ _ _ s Hs H). unfold linear. rewrite Ha. ring.
Qed.

Lemma Pos_derive l : forall p v d s t, smooth l p v d -> is_derive (Pos l d s) t (Vel l s t).
Proof.
  induction l as [| ph r IH]; intros p v d s t H; cbn [smooth] in H.
  - cbn [Vel]. unfold Pos. apply (is_derive_const d t).
  - destruct H as (H0 & Hp & Hv & H). set (c := s + ph_duration ph).
    destruct (smooth_start _ _ _ _ c H) as [E1 E2].
    assert (Ec : ph_duration ph = c - s) by (unfold c; ring).
    apply (derive_glue _ (fun x => cubic ph (x - s)) (Pos r d c) c).
    + intros x L. cbn [Pos]. fold c. destruct (Rlt_dec x c); [reflexivity | lra].
    + intros x L. cbn [Pos]. fold c. destruct (Rlt_dec x c); [lra | reflexivity].
    + rewrite E1. rewrite Ec at 1. reflexivity.
    + intros L. cbn [Vel]. fold c. destruct (Rlt_dec t c) as [L' | L']; [apply cubic_derive |].
      assert (t = c) by lra. subst t. rewrite E2. rewrite Ec. apply cubic_derive.
    + intros L. cbn [Vel]. fold c. destruct (Rlt_dec t c) as [L' | L']; [lra |]. eapply IH; eauto.
Qed.

Lemma Vel_derive l : forall p v d a s t, smooth l p v d -> smooth_acc l a -> is_derive (Vel l s) t (Acc l s t).
Proof.
  induction l as [| ph r IH]; intros p v d a s t H Ha; cbn [smooth smooth_acc] in *.
  - unfold Vel, Acc. apply (is_derive_const 0 t).
  - destruct H as (H0 & Hp & Hv & H). destruct Ha as [Ea Ha]. set (c := s + ph_duration ph).
    destruct (smooth_start _ _ _ _ c H) as [E1 E2]. pose proof (smooth_acc_start _ _ _ _ _ c H Ha) as E3.
    assert (Ec : ph_duration ph = c - s) by (unfold c; ring).
    apply (derive_glue _ (fun x => quadratic ph (x - s)) (Vel r c) c).
    + intros x L. cbn [Vel]. fold c. destruct (Rlt_dec x c); [reflexivity | lra].
    + intros x L. cbn [Vel]. fold c. destruct (Rlt_dec x c); [lra | reflexivity].
    + rewrite E2. rewrite Ec at 1. reflexivity.
    + intros L. cbn [Acc]. fold c. destruct (Rlt_dec t c) as [L' | L']; [apply quadratic_derive |].
      assert (t = c) by lra. subst t. rewrite E3. rewrite Ec. apply quadratic_derive.
    + intros L. cbn [Acc]. fold c. destruct (Rlt_dec t c) as [L' | L']; [lra |]. eapply IH; eauto.
Qed.

(** The velocity is the integral of the acceleration even where that jumps, and likewise one order up. *)
Lemma RInt_const_R (a b c r : R) : r = (b - a) * c -> is_RInt (fun _ => c) a b r.
Proof. intros ->. apply (is_RInt_const (V := R_NormedModule) a b c). Qed.

Lemma RInt_Chasles_R (f : R -> R) (a b c x y r : R) :
  is_RInt f a b x -> is_RInt f b c y -> r = x + y -> is_RInt f a c r.
Proof. intros Hx Hy ->. apply (is_RInt_Chasles (V := R_NormedModule) f a b c x y Hx Hy). Qed.

Lemma Acc_integral l : forall p v d s t, smooth l p v d -> s <= t -> is_RInt (Acc l s) s t (Vel l s t - v).
Proof.
  induction l as [| ph r IH]; intros p v d s t H L; cbn [smooth] in H.
  - cbn [Vel]. apply (is_RInt_ext (fun _ => 0)); [reflexivity |].
    apply RInt_const_R. lra.
  - destruct H as (H0 & Hp & Hv & H). set (c := s + ph_duration ph).
    destruct (smooth_start _ _ _ _ c H) as [E1 E2].
    assert (Ec : ph_duration ph = c - s) by (unfold c; ring).
    assert (part : forall u, s <= u <= c -> is_RInt (Acc (ph :: r) s) s u (quadratic ph (u - s) - v)).
    { intros u Hu. apply (is_RInt_ext (fun x => linear ph (x - s))).
      - intros x Hx. rewrite Rmin_left, Rmax_right in Hx by lra. cbn [Acc]. fold c.
        destruct (Rlt_dec x c); [reflexivity | lra].
      - replace (quadratic ph (u - s) - v) with (minus (quadratic ph (u - s)) (quadratic ph (s - s))).
        + apply (is_RInt_derive (fun x => quadratic ph (x - s))).
          * intros x _. apply quadratic_derive.
          * intros x _. apply (ex_derive_continuous (fun x => linear ph (x - s))). eexists. apply linear_derive.
        + unfold minus, plus, opp; simpl. unfold quadratic at 2. rewrite Hv. ring. }
    cbn [Vel]. fold c. destruct (Rlt_dec t c) as [L' | L']; [apply part; lra |].
    apply (RInt_Chasles_R _ s c t (quadratic ph (c - s) - v) (Vel r c t - quadratic ph (ph_duration ph))).
    + apply part; unfold c; lra.
    + apply (is_RInt_ext (Acc r c)).
      * intros x Hx. rewrite Rmin_left, Rmax_right in Hx by lra. cbn [Acc]. fold c.
        destruct (Rlt_dec x c); [lra | reflexivity].
      * eapply IH; [exact H | lra].
    + rewrite Ec. ring.
Qed.

Lemma Jrk_integral l : forall p v d a s t, smooth l p v d -> smooth_acc l a -> s <= t ->
  is_RInt (Jrk l s) s t (Acc l s t - a).
Proof.
  induction l as [| ph r IH]; intros p v d a s t H Ha L; cbn [smooth smooth_acc] in *.
  - apply (is_RInt_ext (fun _ => 0)); [reflexivity |]. unfold Acc.
    apply RInt_const_R. lra.
  - destruct H as (H0 & Hp & Hv & H). destruct Ha as [Ea Ha]. set (c := s + ph_duration ph).
    pose proof (smooth_acc_start _ _ _ _ _ c H Ha) as E2.
    assert (Ec : ph_duration ph = c - s) by (unfold c; ring).
    assert (part : forall u, s <= u <= c -> is_RInt (Jrk (ph :: r) s) s u (linear ph (u - s) - a)).
    { intros u Hu. apply (is_RInt_ext (fun x => ph_jerk ph)).
      - intros x Hx. rewrite Rmin_left, Rmax_right in Hx by lra. cbn [Jrk]. fold c.
        destruct (Rlt_dec x c); [reflexivity | lra].
      - apply RInt_const_R. unfold linear. rewrite Ea. ring. }
    cbn [Acc]. fold c. destruct (Rlt_dec t c) as [L' | L']; [apply part; lra |].
    apply (RInt_Chasles_R _ s c t (linear ph (c - s) - a) (Acc r c t - linear ph (ph_duration ph))).
    + apply part; unfold c; lra.
    + apply (is_RInt_ext (Jrk r c)).
      * intros x Hx. rewrite Rmin_left, Rmax_right in Hx by lra. cbn [Jrk]. fold c.
        destruct (Rlt_dec x c); [lra | reflexivity].
      * eapply IH; [exact H | exact Ha | lra].
    + rewrite Ec. ring.
Qed.

(** * Limits *)
Definition bounded_phase (vm am jm : R) (ph : Phase (T := R)) : Prop :=
  Rabs (ph_velocity ph) <= vm /\ Rabs (quadratic ph (ph_duration ph)) <= vm /\
  Rabs (ph_acceleration ph) <= am /\ Rabs (linear ph (ph_duration ph)) <= am /\
  0 <= ph_acceleration ph * linear ph (ph_duration ph) /\ Rabs (ph_jerk ph) <= jm.

Lemma between_abs x a b m : Rabs a <= m -> Rabs b <= m -> (a <= x <= b \/ b <= x <= a) -> Rabs x <= m.
Proof. intros Ha Hb H. apply Rabs_le_between in Ha. apply Rabs_le_between in Hb. apply Rabs_le. lra. Qed.

Lemma phase_within vm am jm ph e : bounded_phase vm am jm ph -> 0 <= e <= ph_duration ph ->
  Rabs (quadratic ph e) <= vm /\ Rabs (linear ph e) <= am /\ Rabs (ph_jerk ph) <= jm.
Proof.
  intros (Hv0 & Hv1 & Ha0 & Ha1 & Hs & Hj) He. set (d := ph_duration ph) in *.
  destruct (Req_dec d 0) as [Z | Z].
  { replace e with 0 by lra. unfold quadratic, linear.
    replace (ph_velocity ph + ph_acceleration ph * 0 + ph_jerk ph * 0 * 0 * / 2) with (ph_velocity ph) by field.
    replace (ph_acceleration ph + ph_jerk ph * 0) with (ph_acceleration ph) by ring. auto. }
  assert (B : forall x0 x1 lam, 0 <= lam <= 1 -> x0 <= x0 + lam * (x1 - x0) <= x1 \/ x1 <= x0 + lam * (x1 - x0) <= x0).
  { intros x0 x1 lam Hl. destruct (Rle_dec x0 x1); [left | right]; nra. }
  assert (Hl : 0 <= e / d <= 1).
  { split; [apply Rmult_le_pos; [lra | left; apply Rinv_0_lt_compat; lra] |].
    apply (Rmult_le_reg_r d); [lra |]. replace (e / d * d) with e by (field; lra). lra. }
  assert (El : linear ph e = ph_acceleration ph + (e / d) * (linear ph d - ph_acceleration ph))
    by (unfold linear; field; lra).
  split; [| split; [| exact Hj]].
  - (* the velocity moves one way *)
    apply (between_abs _ (ph_velocity ph) (quadratic ph d)); auto.
    assert (E0 : quadratic ph e = ph_velocity ph + e * ((ph_acceleration ph + linear ph e) * / 2))
      by (unfold quadratic, linear; field).
    assert (E1 : quadratic ph d - quadratic ph e = (d - e) * ((linear ph e + linear ph d) * / 2))
      by (unfold quadratic, linear; field).
    assert (C : (0 <= ph_acceleration ph /\ 0 <= linear ph d) \/ (ph_acceleration ph <= 0 /\ linear ph d <= 0)).
    { destruct (Rle_dec 0 (ph_acceleration ph)) as [G | G].
      - destruct (Rle_dec 0 (linear ph d)) as [G' | G']; [left; lra |].
        right. split; [| lra]. nra.
      - right. split; [lra |]. nra. }
    pose proof (B (ph_acceleration ph) (linear ph d) (e / d) Hl) as Bl. rewrite <- El in Bl.
    destruct C as [[C1 C2] | [C1 C2]]; [left | right]; nra.
  - apply (between_abs _ (ph_acceleration ph) (linear ph d)); auto. rewrite El. apply B. exact Hl.
Qed.

Lemma chain_within vm am jm l : 0 <= vm -> 0 <= am -> 0 <= jm -> List.Forall (bounded_phase vm am jm) l ->
  List.Forall (fun ph => 0 <= ph_duration ph) l -> forall s t, s <= t ->
  Rabs (Vel l s t) <= vm /\ Rabs (Acc l s t) <= am /\ Rabs (Jrk l s t) <= jm.
Proof.
  intros Hv Ha Hj B. induction B as [| ph r Hb B IH]; intros N s t L; cbn [Vel Acc Jrk].
  - rewrite Rabs_R0. auto.
  - inversion N; subst. destruct (Rlt_dec t (s + ph_duration ph)) as [L' | L'].
    + apply phase_within; auto. lra.
    + apply IH; auto. lra.
Qed.

Lemma chain_total l : List.Forall (fun ph => 0 <= ph_duration ph) l -> forall d s t,
  fold_left Rplus (map ph_duration l) s <= t ->
  Pos l d s t = d /\ Vel l s t = 0 /\ Acc l s t = 0 /\ Jrk l s t = 0.
Proof.
  assert (G : forall m a, List.Forall (fun x => 0 <= x) m -> a <= fold_left Rplus m a).
  { induction m as [| x m IHm]; intros a Hm; simpl; [lra |]. inversion Hm; subst.
    eapply Rle_trans; [| apply IHm; auto]. lra. }
  induction 1 as [| ph r Hb B IH]; intros d s t L; cbn [Pos Vel Acc Jrk]; [auto |].
  cbn [map fold_left] in L.
  assert (s + ph_duration ph <= fold_left Rplus (map ph_duration r) (s + ph_duration ph)).
  { apply G. apply Forall_map. exact B. }
  destruct (Rlt_dec t (s + ph_duration ph)) as [L' | L']; [lra |]. apply IH. exact L.
Qed.

(** * What the planner builds *)
Definition moment (l : list (Phase (T := R))) (d t : R) : MotionState (T := R) :=
  {| ms_position := Pos l d 0 t; ms_velocity := Vel l 0 t; ms_acceleration := Acc l 0 t; ms_jerk := Jrk l 0 t |}.

(** A profile that starts and ends at rest, moves smoothly, and stays within limits. *)
Record sound (p : Profile (T := R)) (d vm am jm : R) : Prop := {
  so_distance : pr_distance p = d;
  so_positive : List.Forall (fun ph => 0 <= ph_duration ph) (pr_phases p);
  so_duration : pr_duration p = fold_left Rplus (map ph_duration (pr_phases p)) 0;
  so_smooth : smooth (pr_phases p) 0 0 d;
  so_bounded : List.Forall (bounded_phase vm am jm) (pr_phases p)
}.

Lemma fold_plus_ge l : forall a, List.Forall (fun x => 0 <= x) l -> a <= fold_left Rplus l a.
Proof.
  induction l as [| x m IHm]; intros a Hm; simpl; [lra |]. inversion Hm; subst.
  eapply Rle_trans; [| apply IHm; auto]. lra.
Qed.

Lemma sound_duration p d vm am jm : sound p d vm am jm -> 0 <= pr_duration p.
Proof. intros H. rewrite (so_duration _ _ _ _ _ H). apply fold_plus_ge. apply Forall_map. apply (so_positive _ _ _ _ _ H). Qed.

Lemma sound_state p d vm am jm t : sound p d vm am jm ->
  state_at p t = Ok (moment (pr_phases p) d (Rmax t 0)).
Proof.
  intros H. pose proof (sound_duration _ _ _ _ _ H) as N.
  unfold state_at. rnum. cbn [negb].
  set (c := Rmin (Rmax t 0) (pr_duration p)).
  destruct (state_loop_chain (pr_phases p) d 0 c) as [A B].
  assert (E : match state_loop (pr_phases p) 0 c with
     | Some st => @Ok _ MotionError st
     | None => Ok {| ms_position := pr_distance p; ms_velocity := 0; ms_acceleration := 0; ms_jerk := 0 |} end
     = Ok (moment (pr_phases p) d c)).
  { destruct (state_loop (pr_phases p) 0 c) eqn:Q.
    - inversion A. reflexivity.
    - destruct (B eq_refl) as (B1 & B2 & B3 & B4). unfold moment. rewrite B1, B2, B3, B4, (so_distance _ _ _ _ _ H). reflexivity. }
  rewrite E. f_equal. unfold c. destruct (Rle_dec (Rmax t 0) (pr_duration p)) as [L | L].
  - rewrite Rmin_left by lra. reflexivity.
  - rewrite Rmin_right by lra. pose proof (so_duration _ _ _ _ _ H) as D.
    pose proof (so_positive _ _ _ _ _ H) as Q.
    destruct (chain_total _ Q d 0 (pr_duration p)) as (C1 & C2 & C3 & C4); [lra |].
    destruct (chain_total _ Q d 0 (Rmax t 0)) as (D1 & D2 & D3 & D4); [lra |].
    unfold moment. congruence.
Qed.

Fixpoint velocity_after (l : list (R * R * R)) (sg v : R) : R :=
  match l with [] => v | (t, j, a) :: r => velocity_after r sg (v + a * sg * t + j * sg * t * t * / 2) end.
Fixpoint position_after (l : list (R * R * R)) (sg p v : R) : R :=
  match l with
  | [] => p
  | (t, j, a) :: r =>
      position_after r sg (p + v * t + a * sg * t * t * / 2 + j * sg * t * t * t / 6)
        (v + a * sg * t + j * sg * t * t * / 2)
  end.
(** Every phase of the plan within limits, starting at velocity [v]. *)
Fixpoint plan_bounded (l : list (R * R * R)) (sg v vm am jm : R) : Prop :=
  match l with
  | [] => True
  | (t, j, a) :: r =>
      0 <= t /\ Rabs v <= vm /\ Rabs (v + a * sg * t + j * sg * t * t * / 2) <= vm /\
      Rabs (a * sg) <= am /\ Rabs (a * sg + j * sg * t) <= am /\ 0 <= a * sg * (a * sg + j * sg * t) /\
      Rabs (j * sg) <= jm /\
      plan_bounded r sg (v + a * sg * t + j * sg * t * t * / 2) vm am jm
  end.
Fixpoint plan_acc (l : list (R * R * R)) (sg a0 : R) : Prop :=
  match l with [] => a0 = 0 | (t, j, a) :: r => a * sg = a0 /\ plan_acc r sg (a * sg + j * sg * t) end.

Lemma phase_plan_sound sg vm am jm l : forall total p v phases t d,
  phase_plan l sg total p v = (phases, t, d) -> plan_bounded l sg v vm am jm -> velocity_after l sg v = 0 ->
  d = position_after l sg p v /\ List.Forall (fun ph => 0 <= ph_duration ph) phases /\
  t = fold_left Rplus (map ph_duration phases) total /\ smooth phases p v d /\ List.Forall (bounded_phase vm am jm) phases.
Proof.
  induction l as [| [[t0 j0] a0] r IH]; intros total p v phases t d E B V; cbn [phase_plan plan_bounded velocity_after position_after] in *.
  - inversion E; subst. repeat split; auto; constructor.
  - rnum. unfold advance_position, advance_velocity in E. rnum.
    destruct (phase_plan r sg (total + t0) _ _) as [[ph' t'] d'] eqn:E'. inversion E; subst; clear E.
    destruct B as (B0 & B1 & B2 & B3 & B4 & B5 & B6 & B).
    destruct (IH _ _ _ _ _ _ E' B V) as (D & N & S' & SM & BD).
    split; [exact D |]. split; [constructor; auto |]. split; [exact S' |].
    split; [| constructor; [| exact BD]].
    + cbn [smooth]. unfold cubic, quadratic. cbn. auto.
    + unfold bounded_phase, quadratic, linear. cbn. auto 10.
Qed.
Lemma phase_plan_acc sg l : forall total p v phases t d a,
  phase_plan l sg total p v = (phases, t, d) -> plan_acc l sg a -> smooth_acc phases a.
Proof.
  induction l as [| [[t0 j0] a0] r IH]; intros total p v phases t d a E H; cbn [phase_plan plan_acc] in *.
  - inversion E; subst. reflexivity.
  - rnum. destruct (phase_plan r sg (total + t0) _ _) as [[ph' t'] d'] eqn:E'. inversion E; subst; clear E.
    destruct H as [H1 H2]. cbn [smooth_acc]. unfold linear. cbn. split; auto. eapply IH; eauto.
Qed.

Lemma from_phase_plan_sound sg vm am jm l : plan_bounded l sg 0 vm am jm -> velocity_after l sg 0 = 0 ->
  sound (from_phase_plan l sg) (position_after l sg 0 0) vm am jm.
Proof.
  intros B V. unfold from_phase_plan. rnum. destruct (phase_plan l sg 0 0 0) as [[ph t] d] eqn:E.
  destruct (phase_plan_sound _ _ _ _ _ _ _ _ _ _ _ E B V) as (D & N & S' & SM & BD).
  constructor; cbn; auto. rewrite <- D; auto.
Qed.
Lemma from_phase_plan_acc sg l : plan_acc l sg 0 -> smooth_acc (pr_phases (from_phase_plan l sg)) 0.
Proof.
  intros H. unfold from_phase_plan. rnum. destruct (phase_plan l sg 0 0 0) as [[ph t] d] eqn:E.
  cbn. eapply phase_plan_acc; eauto.
Qed.
Lemma from_phase_plan_duration l sg : pr_duration (from_phase_plan l sg) = fold_left (fun s '(t, _, _) => s + t) l 0.
Proof.
  unfold from_phase_plan. rnum.
  assert (G : forall l total p v, snd (fst (phase_plan l sg total p v)) = fold_left (fun s '(t, _, _) => s + t) l total).
  { induction l0 as [| [[t0 j0] a0] r IH]; intros; cbn [phase_plan fold_left]; [reflexivity |].
    rnum. destruct (phase_plan r sg _ _ _) as [[ph' t'] d'] eqn:E'. cbn. rewrite <- (IH (total + t0)
      (advance_position p v (a0 * sg) (j0 * sg) t0) (advance_velocity v (a0 * sg) (j0 * sg) t0)).
    rewrite E'. reflexivity. }
  rewrite <- (G l 0 0 0). destruct (phase_plan l sg 0 0 0) as [[ph t] d]. reflexivity.
Qed.

(** * The numbers the planner chooses *)
Definition unit_sign (sg : R) : Prop := sg = 1 \/ sg = -1.

Lemma abs_sign sg x m : unit_sign sg -> Rabs x <= m -> Rabs (x * sg) <= m.
Proof. intros [-> | ->] H; [rewrite Rmult_1_r | replace (x * -1) with (- x) by ring; rewrite Rabs_Ropp]; exact H. Qed.

Lemma still_sound sg vm am jm : 0 <= vm -> 0 <= am -> 0 <= jm -> sound (plan_still sg) 0 vm am jm.
Proof.
  intros. unfold plan_still. replace 0 with (position_after (repeat (0, 0, 0) 7) sg 0 0) at 1.
  - rnum. apply from_phase_plan_sound.
    + cbn [repeat plan_bounded].
      repeat match goal with |- context [Rabs ?x] => lazymatch x with 0 => fail | _ => replace x with 0 by (ring || field) end end.
      rewrite Rabs_R0. repeat split; try lra; try nra.
    + cbn [repeat velocity_after]. field.
  - cbn [repeat position_after]. field.
Qed.

(** Every step of a plan's bounds, once its velocities are known up to the sign of the move. *)
Lemma plan_bounded_step sg t j a r v v1 w vm am jm : unit_sign sg -> v = w * sg -> 0 <= t ->
  v1 = w + a * t + j * t * t * / 2 ->
  Rabs w <= vm -> Rabs v1 <= vm -> Rabs a <= am -> Rabs (a + j * t) <= am -> 0 <= a * (a + j * t) -> Rabs j <= jm ->
  plan_bounded r sg (v1 * sg) vm am jm -> plan_bounded ((t, j, a) :: r) sg v vm am jm.
Proof.
  intros Hs -> Ht E1 Hw Hv1 Ha Ha1 Hp Hj Hr.
  assert (E : w * sg + a * sg * t + j * sg * t * t * / 2 = v1 * sg) by (rewrite E1; field).
  cbn [plan_bounded]. rewrite E.
  replace (a * sg + j * sg * t) with ((a + j * t) * sg) by ring.
  repeat split; auto using abs_sign.
  destruct Hs as [-> | ->]; nra.
Qed.

Lemma trapezoid_sound sg peak at_ ct am vm : unit_sign sg -> 0 <= peak <= vm -> 0 <= at_ -> 0 <= ct -> 0 < am ->
  peak = am * at_ ->
  let l := [(0, 0, 0); (at_, 0, am); (0, 0, 0); (ct, 0, 0); (0, 0, 0); (at_, 0, - am); (0, 0, 0)] in
  sound (from_phase_plan l sg) ((peak * at_ + peak * ct) * sg) vm am 0 /\
  pr_duration (from_phase_plan l sg) = at_ + ct + at_ /\ peak_speed (from_phase_plan l sg) = peak * sg.
Proof.
  intros Hs Hp Ha Hc Ham E l. split; [| split].
  - replace ((peak * at_ + peak * ct) * sg) with (position_after l sg 0 0).
    + assert (A : forall x, 0 <= x <= vm -> Rabs x <= vm) by (intros; apply Rabs_le; lra).
      assert (B : forall x, - am <= x <= am -> Rabs x <= am) by (intros; apply Rabs_le; lra).
      apply from_phase_plan_sound.
      * unfold l.
        apply (plan_bounded_step sg _ _ _ _ _ 0 0); auto; try lra; try (apply A; lra); try (apply B; lra); try (rewrite Rabs_R0; lra).
        apply (plan_bounded_step sg _ _ _ _ _ peak 0); auto; try lra; try (apply A; lra); try (apply B; lra); try (rewrite Rabs_R0; lra); try nra.
        apply (plan_bounded_step sg _ _ _ _ _ peak peak); auto; try lra; try (apply A; lra); try (apply B; lra); try (rewrite Rabs_R0; lra); try nra.
        apply (plan_bounded_step sg _ _ _ _ _ peak peak); auto; try lra; try (apply A; lra); try (apply B; lra); try (rewrite Rabs_R0; lra); try nra.
        apply (plan_bounded_step sg _ _ _ _ _ peak peak); auto; try lra; try (apply A; lra); try (apply B; lra); try (rewrite Rabs_R0; lra); try nra.
        apply (plan_bounded_step sg _ _ _ _ _ 0 peak); auto; try lra; try (apply A; lra); try (apply B; lra); try (rewrite Rabs_R0; lra); try nra.
        apply (plan_bounded_step sg _ _ _ _ _ 0 0); auto; try lra; try (apply A; lra); try (apply B; lra); try (rewrite Rabs_R0; lra); try nra.
        exact I.
      * unfold l. cbn [velocity_after]. field.
    + unfold l. cbn [position_after]. rewrite E. field.
  - unfold l. rewrite from_phase_plan_duration. cbn [fold_left]. ring.
  - unfold l, peak_speed, from_phase_plan. cbn. unfold advance_velocity. rnum. rewrite E. field.
Qed.

Lemma scurve_sound sg jt ht ct j am vm : unit_sign sg -> 0 <= jt -> 0 <= ht -> 0 <= ct -> 0 < j ->
  j * jt <= am -> j * jt * (jt + ht) <= vm ->
  let peak := j * jt * (jt + ht) in
  let l := [(jt, j, 0); (ht, 0, j * jt); (jt, - j, j * jt); (ct, 0, 0); (jt, - j, 0); (ht, 0, - (j * jt)); (jt, j, - (j * jt))] in
  sound (from_phase_plan l sg) ((peak * (jt + jt + ht) + peak * ct) * sg) vm am j /\
  smooth_acc (pr_phases (from_phase_plan l sg)) 0 /\
  pr_duration (from_phase_plan l sg) = 2 * (jt + jt + ht) + ct /\ peak_speed (from_phase_plan l sg) = peak * sg.
Proof.
  intros Hs Hjt Hht Hct Hj Ham Hvm peak l.
  assert (P0 : 0 <= j * jt) by nra. assert (P1 : 0 <= j * jt * jt) by nra. assert (P2 : 0 <= j * jt * ht) by nra.
  assert (Ep : peak = j * jt * jt + j * jt * ht) by (unfold peak; ring).
  fold peak in Hvm.
  split; [| split; [| split]].
  - replace ((peak * (jt + jt + ht) + peak * ct) * sg) with (position_after l sg 0 0).
    + assert (A : forall x, 0 <= x <= peak -> Rabs x <= vm) by (intros; apply Rabs_le; lra).
      assert (B : forall x, - (j * jt) <= x <= j * jt -> Rabs x <= am) by (intros; apply Rabs_le; lra).
      assert (C : Rabs j <= j /\ Rabs (- j) <= j /\ Rabs 0 <= j) by (repeat split; apply Rabs_le; lra).
      destruct C as (C1 & C2 & C3).
      apply from_phase_plan_sound.
      * unfold l.
        apply (plan_bounded_step sg _ _ _ _ _ (j * jt * jt * / 2) 0); auto; try (apply A; lra); try (apply B; lra); try lra; try nra.
        apply (plan_bounded_step sg _ _ _ _ _ (j * jt * jt * / 2 + j * jt * ht) (j * jt * jt * / 2)); auto; try (apply A; lra); try (apply B; lra); try lra; try nra.
        apply (plan_bounded_step sg _ _ _ _ _ peak (j * jt * jt * / 2 + j * jt * ht)); auto; try (apply A; lra); try (apply B; lra); try lra; try nra.
        apply (plan_bounded_step sg _ _ _ _ _ peak peak); auto; try (apply A; lra); try (apply B; lra); try lra; try nra.
        apply (plan_bounded_step sg _ _ _ _ _ (j * jt * jt * / 2 + j * jt * ht) peak); auto; try (apply A; lra); try (apply B; lra); try lra; try nra.
        apply (plan_bounded_step sg _ _ _ _ _ (j * jt * jt * / 2) (j * jt * jt * / 2 + j * jt * ht)); auto; try (apply A; lra); try (apply B; lra); try lra; try nra.
        apply (plan_bounded_step sg _ _ _ _ _ 0 (j * jt * jt * / 2)); auto; try (apply A; lra); try (apply B; lra); try lra; try nra.
        exact I.
      * unfold l. cbn [velocity_after]. field.
    + unfold l, peak. cbn [position_after]. field.
  - apply from_phase_plan_acc. unfold l. cbn [plan_acc]. repeat split; ring.
  - unfold l. rewrite from_phase_plan_duration. cbn [fold_left]. ring.
  - unfold l, peak_speed, from_phase_plan. cbn. unfold advance_velocity. rnum. unfold peak. field.
Qed.

Lemma sound_weaken p d vm vm' am am' jm jm' : sound p d vm am jm -> vm <= vm' -> am <= am' -> jm <= jm' ->
  sound p d vm' am' jm'.
Proof.
  intros [] Hv Ha Hj. constructor; auto. eapply Forall_impl; [| eassumption].
  unfold bounded_phase. intros ph H. destruct H as (H1 & H2 & H3 & H4 & H5 & H6). repeat split; lra.
Qed.

Lemma trapezoidal_shape d vm am jl sg : 0 < d -> 0 < vm -> 0 < am -> unit_sign sg ->
  exists at_ ct, 0 < at_ /\ 0 <= ct /\ am * at_ <= vm /\ (ct = 0 \/ am * at_ = vm) /\ am * at_ * (at_ + ct) = d /\
    let p := plan_trapezoidal d {| li_speed := vm; li_acceleration := am; li_jerk := jl |} sg in
    sound p (d * sg) (am * at_) am 0 /\ pr_duration p = at_ + ct + at_ /\ peak_speed p = am * at_ * sg.
Proof.
  intros Hd Hv Ha Hs. unfold plan_trapezoidal. rnum. cbn [li_speed li_acceleration].
  set (q := R_sqrt.sqrt (d * am)).
  assert (Hq : 0 < q) by (apply sqrt_lt_R0; nra).
  assert (Hqq : q * q = d * am) by (apply sqrt_sqrt; nra).
  set (peak := Rmin vm q).
  assert (Hp : 0 < peak) by (unfold peak; apply Rmin_pos; auto).
  assert (Hpv : peak <= vm) by apply Rmin_l. assert (Hpq : peak <= q) by apply Rmin_r.
  destruct (Rleb peak 0) eqn:E; rcases; [lra |].
  set (at_ := peak / am).
  assert (Eat : am * at_ = peak) by (unfold at_; field; lra).
  assert (Hat : 0 < at_) by (unfold at_; apply Rdiv_lt_0_compat; auto).
  assert (Hge : peak * at_ <= d).
  { apply (Rmult_le_reg_r am); [auto |]. replace (peak * at_ * am) with (peak * (am * at_)) by ring. rewrite Eat. nra. }
  set (ct := Rmax ((d - peak * at_) / peak) 0).
  assert (Ect : ct = (d - peak * at_) / peak).
  { unfold ct. apply Rmax_left. apply Rmult_le_pos; [lra | left; apply Rinv_0_lt_compat; auto]. }
  assert (Hct : 0 <= ct) by (unfold ct; apply Rmax_r).
  assert (Ed : peak * at_ + peak * ct = d) by (rewrite Ect; field; lra).
  exists at_, ct. split; [auto |]. split; [auto |]. split; [lra |]. split; [| split].
  - unfold peak in *. destruct (Rle_dec vm q) as [L | L].
    + right. rewrite Eat. apply Rmin_left. auto.
    + left. rewrite Ect. rewrite (Rmin_right vm q) in * by lra.
      assert (q * at_ = d). { apply (Rmult_eq_reg_r am); [| lra]. replace (q * at_ * am) with (q * (am * at_)) by ring. rewrite Eat. auto. }
      rewrite H. unfold Rdiv. ring.
  - rewrite Eat. lra.
  - rewrite Eat, <- Ed. apply trapezoid_sound; auto; lra.
Qed.

(** The time to reach a speed from rest and be at zero acceleration again. *)
Definition ramp (v am j : R) : R := fst (acceleration_ramp v am j) + fst (acceleration_ramp v am j) + snd (acceleration_ramp v am j).

Lemma ramp_parts v am j : 0 < v -> 0 < am -> 0 < j ->
  let jt := fst (acceleration_ramp v am j) in let ht := snd (acceleration_ramp v am j) in
  0 < jt /\ 0 <= ht /\ j * jt <= am /\ (ht = 0 \/ j * jt = am) /\ j * jt * (jt + ht) = v /\
  (am * am <= v * j -> ramp v am j = v / am + am / j) /\ (v * j < am * am -> ramp v am j = 2 * R_sqrt.sqrt (v / j)).
Proof.
  intros Hv Ha Hj. unfold ramp, acceleration_ramp. rnum.
  destruct (Rleb (am * am) (v * j)) eqn:E; rcases; cbn [fst snd].
  - assert (H : 0 <= v / am - am / j).
    { assert (am / j <= v / am); [| lra]. apply (Rmult_le_reg_r (am * j)); [nra |].
      replace (am / j * (am * j)) with (am * am) by (field; lra). replace (v / am * (am * j)) with (v * j) by (field; lra). auto. }
    rewrite Rmax_left by auto. repeat split; auto.
    + apply Rdiv_lt_0_compat; auto.
    + right. field. lra.
    + right. field. lra.
    + field. lra.
    + intros _. field. lra.
    + intros; lra.
  - assert (Q : 0 < v / j) by (apply Rdiv_lt_0_compat; auto).
    pose proof (sqrt_lt_R0 _ Q) as Q1. pose proof (sqrt_sqrt (v / j) ltac:(lra)) as Q2.
    assert (Q3 : j * (v / j) = v) by (field; lra).
    repeat split; auto; try lra.
    + set (s := R_sqrt.sqrt (v / j)) in *. assert (j * s * (j * s) < am * am) by nra.
      destruct (Rle_dec (j * s) am); auto. exfalso. nra.
    + rewrite Rplus_0_r. rewrite Rmult_assoc, Q2. exact Q3.
Qed.

Lemma ramp_monotone v w am j : 0 < v -> v <= w -> 0 < am -> 0 < j -> ramp v am j <= ramp w am j.
Proof.
  intros Hv L Ha Hj.
  destruct (ramp_parts v am j Hv Ha Hj) as (_ & _ & _ & _ & _ & V1 & V2).
  destruct (ramp_parts w am j ltac:(lra) Ha Hj) as (_ & _ & _ & _ & _ & W1 & W2).
  assert (Hw : w * j >= v * j) by nra.
  assert (D : forall x y, x <= y -> x / j <= y / j /\ x / am <= y / am).
  { intros x y Hxy. split; apply Rmult_le_compat_r; auto; left; apply Rinv_0_lt_compat; auto. }
  destruct (Rle_dec (am * am) (v * j)) as [A | A].
  - rewrite V1, W1 by lra. destruct (D _ _ L). lra.
  - rewrite V2 by lra. destruct (Rle_dec (am * am) (w * j)) as [B | B].
    + rewrite W1 by lra.
      assert (X : R_sqrt.sqrt (v / j) <= am / j).
      { rewrite <- (sqrt_Rsqr (am / j)) by (apply Rlt_le, Rdiv_lt_0_compat; auto). apply sqrt_le_1_alt. unfold Rsqr.
        apply (Rmult_le_reg_r (j * j)); [nra |]. replace (v / j * (j * j)) with (v * j) by (field; lra).
        replace (am / j * (am / j) * (j * j)) with (am * am) by (field; lra). lra. }
      assert (Y : am / j <= w / am).
      { apply (Rmult_le_reg_r (am * j)); [nra |].
        replace (am / j * (am * j)) with (am * am) by (field; lra). replace (w / am * (am * j)) with (w * j) by (field; lra). auto. }
      lra.
    + rewrite W2 by lra. apply Rmult_le_compat_l; [lra |]. apply sqrt_le_1_alt. apply D. auto.
Qed.

Lemma reachable_exact d am j : 0 < d -> 0 < am -> 0 < j ->
  let v := jerk_speed_reachable d am j in 0 < v /\ v * ramp v am j = d.
Proof.
  intros Hd Ha Hj v. unfold jerk_speed_reachable in v. rnum.
  set (q := Rcbrt (d * d * j / 4)) in v.
  assert (Hx : 0 < d * d * j / 4) by (apply Rdiv_lt_0_compat; [apply Rmult_lt_0_compat; nra | lra]).
  destruct (Rcbrt_pos _ Hx) as [Hq Hqqq]. fold q in Hq, Hqqq.
  destruct (Rltb (q * j) (am * am)) eqn:E; rcases.
  - subst v. split; [exact Hq |].
    destruct (ramp_parts q am j Hq Ha Hj) as (_ & _ & _ & _ & _ & _ & W2). rewrite W2 by auto.
    assert (Q : 0 < q / j) by (apply Rdiv_lt_0_compat; auto).
    pose proof (sqrt_lt_R0 _ Q) as Q1. pose proof (sqrt_sqrt (q / j) ltac:(lra)) as Q2.
    set (s := R_sqrt.sqrt (q / j)) in *. apply Rsqr_inj; try (apply Rmult_le_pos; lra); [lra |]. unfold Rsqr.
    replace (q * (2 * s) * (q * (2 * s))) with (4 * (q * q) * (s * s)) by ring. rewrite Q2.
    replace (4 * (q * q) * (q / j)) with (4 * (q * q * q) / j) by (field; lra). rewrite Hqqq. field. lra.
  - set (r := am * am / j) in v. set (s := R_sqrt.sqrt (r * r + am * d * 4)) in v.
    assert (Hr : 0 < r) by (unfold r; apply Rdiv_lt_0_compat; nra).
    assert (H4 : 0 < am * d) by (apply Rmult_lt_0_compat; auto).
    assert (Hss : s * s = r * r + am * d * 4) by (apply sqrt_sqrt; nra).
    assert (Hs : 0 <= s) by (apply sqrt_pos).
    assert (Hrs : r < s) by nra.
    assert (Hv : 0 < v) by (unfold v; lra).
    assert (Ev : v * v + r * v = am * d) by (unfold v; nra).
    split; [exact Hv |].
    assert (Erj : r * j = am * am) by (unfold r; field; lra).
    (* the displacement is long enough for the acceleration to reach its limit *)
    assert (Hd2 : 2 * (r * r) <= am * d).
    { assert (Hrq : r <= q). { apply (Rmult_le_reg_r j); [auto |]. lra. }
      assert (C : r * r * r <= d * d * j / 4).
      { rewrite <- Hqqq. assert (r * r <= q * q) by nra. nra. }
      assert (4 * (r * r * r) * r <= am * am * (d * d)).
      { replace (am * am * (d * d)) with (r * (d * d * j)) by (rewrite <- Erj; ring). nra. }
      assert (2 * (r * r) * (2 * (r * r)) <= am * d * (am * d)) by nra.
      destruct (Rle_dec (2 * (r * r)) (am * d)); auto. exfalso. assert (0 < r * r) by nra. nra. }
    assert (Hrv : r <= v) by nra.
    destruct (ramp_parts v am j Hv Ha Hj) as (_ & _ & _ & _ & _ & W1 & _). rewrite W1 by nra.
    apply (Rmult_eq_reg_r am); [| lra].
    replace (v * (v / am + am / j) * am) with (v * v + r * v) by (unfold r; field; lra). lra.
Qed.

Lemma jerk_shape d vm am jl j sg : 0 < d -> 0 < vm -> 0 < am -> 0 < j -> unit_sign sg ->
  exists jt ht ct, 0 < jt /\ 0 <= ht /\ 0 <= ct /\ j * jt <= am /\ (ht = 0 \/ j * jt = am) /\
    j * jt * (jt + ht) <= vm /\ (ct = 0 \/ j * jt * (jt + ht) = vm) /\
    j * jt * (jt + ht) * (jt + jt + ht + ct) = d /\
    let p := plan_jerk_limited d {| li_speed := vm; li_acceleration := am; li_jerk := jl |} j sg in
    sound p (d * sg) (j * jt * (jt + ht)) am j /\ smooth_acc (pr_phases p) 0 /\
    pr_duration p = 2 * (jt + jt + ht) + ct /\ peak_speed p = j * jt * (jt + ht) * sg.
Proof.
  intros Hd Hv Ha Hj Hs. unfold plan_jerk_limited. rnum. cbn [li_speed li_acceleration].
  destruct (reachable_exact d am j Hd Ha Hj) as [Hr Er]. set (r := jerk_speed_reachable d am j) in *.
  set (peak := Rmin vm r).
  assert (Hp : 0 < peak) by (unfold peak; apply Rmin_pos; auto).
  assert (Hpv : peak <= vm) by apply Rmin_l. assert (Hpr : peak <= r) by apply Rmin_r.
  destruct (Rleb peak 0) eqn:E; rcases; [lra |].
  pose proof (ramp_monotone peak r am j Hp Hpr Ha Hj) as Hm.
  destruct (ramp_parts peak am j Hp Ha Hj) as (J1 & J2 & J3 & J4 & J5 & _ & _).
  assert (Eramp : ramp peak am j = ramp peak am j) by reflexivity. unfold ramp in Eramp at 2.
  destruct (acceleration_ramp peak am j) as [jt ht] eqn:Q. cbn [fst snd] in *.
  assert (Hge : peak * (jt + jt + ht) <= d). { rewrite <- Eramp, <- Er. assert (0 < ramp peak am j) by lra. nra. }
  set (ct := Rmax ((d - peak * (jt + jt + ht)) / peak) 0).
  assert (Ect : ct = (d - peak * (jt + jt + ht)) / peak).
  { unfold ct. apply Rmax_left. apply Rmult_le_pos; [lra | left; apply Rinv_0_lt_compat; auto]. }
  assert (Hct : 0 <= ct) by (unfold ct; apply Rmax_r).
  assert (Ed : peak * (jt + jt + ht) + peak * ct = d) by (rewrite Ect; field; lra).
  exists jt, ht, ct. split; [auto |]. split; [auto |]. split; [auto |]. split; [auto |]. split; [auto |].
  rewrite J5. split; [auto |]. split; [| split; [lra |]].
  - unfold peak in *. destruct (Rle_dec vm r) as [L | L].
    + right. apply Rmin_left. auto.
    + left. rewrite Ect. rewrite (Rmin_right vm r) in * by lra. rewrite <- Eramp, Er. unfold Rdiv. ring.
  - destruct (scurve_sound sg jt ht ct j am peak) as (S1 & S2 & S3 & S4); auto; try lra.
    rewrite J5, Ed in S1. rewrite J5 in S4. auto.
Qed.

Lemma still_duration sg : pr_duration (plan_still sg) = 0.
Proof. unfold plan_still. rnum. rewrite from_phase_plan_duration. cbn [repeat fold_left]. ring. Qed.
Lemma still_acc sg : smooth_acc (pr_phases (plan_still sg)) 0.
Proof. unfold plan_still. apply from_phase_plan_acc. rnum. cbn [repeat plan_acc]. repeat split; ring. Qed.
Lemma trapezoidal_still lim sg : 0 < li_speed lim -> plan_trapezoidal 0 lim sg = plan_still sg.
Proof.
  intros Hv. unfold plan_trapezoidal. rnum. rewrite Rmult_0_l, sqrt_0, Rmin_right by lra.
  destruct (Rleb 0 0) eqn:E; rcases; [reflexivity | lra].
Qed.
Lemma jerk_still lim j sg : 0 < li_speed lim -> 0 < li_acceleration lim -> plan_jerk_limited 0 lim j sg = plan_still sg.
Proof.
  intros Hv Ha. unfold plan_jerk_limited, jerk_speed_reachable. rnum.
  replace (0 * 0 * j / 4) with 0 by field.
  assert (E0 : Rcbrt 0 = 0) by (unfold Rcbrt; destruct (Req_EM_T 0 0); lra). rewrite E0.
  destruct (Rltb (0 * j) (li_acceleration lim * li_acceleration lim)) eqn:E; rcases; [| nra].
  rewrite Rmin_right by lra. destruct (Rleb 0 0) eqn:E'; rcases; [reflexivity | lra].
Qed.

(** The velocity reported at the end of the first [k] phases is the one phase [k] starts with. *)
Lemma Vel_at_phase l : forall k p v d s ph, smooth l p v d -> nth_error l k = Some ph ->
  Vel l s (fold_left Rplus (map ph_duration (firstn k l)) s) = ph_velocity ph.
Proof.
  induction l as [| x r IH]; intros k p v d s ph H E; [destruct k; discriminate |].
  destruct k as [| k]; cbn [nth_error firstn map fold_left] in *.
  - inversion E; subst. cbn [smooth] in H. pose proof (smooth_start (ph :: r) p v d s H) as [_ V].
    rewrite V. symmetry. apply H.
  - cbn [smooth] in H. destruct H as (H0 & Hp & Hv & H).
    pose proof (IH k _ _ _ (s + ph_duration x) ph H E) as V. cbn [Vel].
    assert (L : s + ph_duration x <= fold_left Rplus (map ph_duration (firstn k r)) (s + ph_duration x)).
    { apply fold_plus_ge. apply Forall_map. clear - H. revert H. generalize (cubic x (ph_duration x)), (quadratic x (ph_duration x)).
      revert k. induction r as [| y r IH]; intros k a b H; [rewrite firstn_nil; constructor |].
      destruct k; [constructor |]. cbn [smooth] in H. destruct H as (? & _ & _ & H). constructor; [auto | eapply IH; eauto]. }
    destruct (Rlt_dec _ (s + ph_duration x)); [lra | exact V].
Qed.

(** * Stretching *)
Definition stretch (k : R) (ph : Phase (T := R)) : Phase :=
  {| ph_duration := ph_duration ph * k; ph_jerk := ph_jerk ph / (k * k * k); ph_position := ph_position ph;
     ph_velocity := ph_velocity ph / k; ph_acceleration := ph_acceleration ph / (k * k) |}.

Lemma stretch_cubic k ph e : k <> 0 -> cubic (stretch k ph) e = cubic ph (e / k) /\
  quadratic (stretch k ph) e = quadratic ph (e / k) / k /\ linear (stretch k ph) e = linear ph (e / k) / (k * k).
Proof. intros. unfold cubic, quadratic, linear, stretch; cbn. repeat split; field; auto. Qed.

Lemma stretch_chain k l : 0 < k -> forall d s t,
  Pos (map (stretch k) l) d (s * k) t = Pos l d s (t / k) /\
  Vel (map (stretch k) l) (s * k) t = Vel l s (t / k) / k /\
  Acc (map (stretch k) l) (s * k) t = Acc l s (t / k) / (k * k) /\
  Jrk (map (stretch k) l) (s * k) t = Jrk l s (t / k) / (k * k * k).
Proof.
  intros Hk. induction l as [| ph r IH]; intros d s t; cbn [map Pos Vel Acc Jrk].
  - repeat split; field; lra.
  - change (ph_duration (stretch k ph)) with (ph_duration ph * k).
    replace (s * k + ph_duration ph * k) with ((s + ph_duration ph) * k) by ring.
    assert (Q : t < (s + ph_duration ph) * k <-> t / k < s + ph_duration ph).
    { split; intros Q; [apply (Rmult_lt_reg_r k) | apply (Rmult_lt_compat_r k) in Q]; auto;
        replace (t / k * k) with t in * by (field; lra); auto. }
    destruct (Rlt_dec t ((s + ph_duration ph) * k)) as [L | L]; destruct (Rlt_dec (t / k) (s + ph_duration ph)) as [L' | L'];
      try (exfalso; tauto).
    + destruct (stretch_cubic k ph (t - s * k)) as (E1 & E2 & E3); [lra |]. rewrite E1, E2, E3.
      replace ((t - s * k) / k) with (t / k - s) by (field; lra). auto.
    + apply IH.
Qed.

Lemma stretch_sound p d vm am jm k : 0 < k -> sound p d vm am jm ->
  sound {| pr_phases := map (stretch k) (pr_phases p); pr_duration := pr_duration p * k; pr_distance := pr_distance p |}
    d (vm / k) (am / (k * k)) (jm / (k * k * k)).
Proof.
  intros Hk [H1 H2 H3 H4 H5].
  assert (K2 : 0 < k * k) by nra. assert (K3 : 0 < k * k * k) by nra.
  assert (I1 : 0 < / k) by (apply Rinv_0_lt_compat; auto). assert (I2 : 0 < / (k * k)) by (apply Rinv_0_lt_compat; auto).
  assert (I3 : 0 < / (k * k * k)) by (apply Rinv_0_lt_compat; auto).
  assert (AB : forall x y c, 0 < / c -> Rabs x <= y -> Rabs (x / c) <= y / c).
  { intros x y c Hc Hx. unfold Rdiv. rewrite Rabs_mult, (Rabs_pos_eq (/ c)) by lra. apply Rmult_le_compat_r; lra. }
  constructor; cbn [pr_phases pr_duration pr_distance]; auto.
  - apply Forall_map. eapply Forall_impl; [| exact H2]. intros ph Hp. cbn. nra.
  - rewrite H3. rewrite map_map. cbn [stretch ph_duration].
    assert (G : forall l a, fold_left Rplus (map (fun ph => ph_duration ph * k) l) (a * k) = fold_left Rplus (map ph_duration l) a * k).
    { induction l as [| x r IH]; intros a; cbn [map fold_left]; [reflexivity |]. rewrite <- IH. f_equal. ring. }
    rewrite <- G. f_equal. ring.
  - assert (G : forall l a v, smooth l a v d -> smooth (map (stretch k) l) a (v / k) d).
    { induction l as [| x r IH]; intros a v H; cbn [map smooth] in *.
      - destruct H as [-> ->]. split; [reflexivity | field; lra].
      - destruct H as (G1 & G2 & G3 & G4).
        destruct (stretch_cubic k x (ph_duration x * k)) as (E1 & E2 & E3); [lra |].
        change (ph_duration (stretch k x)) with (ph_duration x * k). rewrite E1, E2.
        replace (ph_duration x * k / k) with (ph_duration x) by (field; lra).
        repeat split; [nra | exact G2 | cbn; rewrite G3; reflexivity | apply IH; exact G4]. }
    replace 0 with (0 / k) at 2 by (field; lra). apply G. exact H4.
  - apply Forall_map. eapply Forall_impl; [| exact H5]. intros ph (B1 & B2 & B3 & B4 & B5 & B6).
    unfold bounded_phase. change (ph_duration (stretch k ph)) with (ph_duration ph * k).
    destruct (stretch_cubic k ph (ph_duration ph * k)) as (E1 & E2 & E3); [lra |]. rewrite E2, E3.
    replace (ph_duration ph * k / k) with (ph_duration ph) by (field; lra).
    cbn [stretch ph_velocity ph_acceleration ph_jerk].
    repeat split; auto.
    replace (ph_acceleration ph / (k * k) * (linear ph (ph_duration ph) / (k * k)))
      with (ph_acceleration ph * linear ph (ph_duration ph) * (/ (k * k) * / (k * k))) by (field; lra).
    apply Rmult_le_pos; [exact B5 | nra].
Qed.

(** * The mirrored plan *)
Definition negate (s : MotionState (T := R)) : MotionState := {|
  ms_position := - ms_position s; ms_velocity := - ms_velocity s; ms_acceleration := - ms_acceleration s; ms_jerk := - ms_jerk s |}.
Definition neg_phase (ph : Phase (T := R)) : Phase := {|
  ph_duration := ph_duration ph; ph_jerk := - ph_jerk ph; ph_position := - ph_position ph;
  ph_velocity := - ph_velocity ph; ph_acceleration := - ph_acceleration ph |}.

Lemma phase_plan_neg l sg : forall total p v,
  phase_plan l (- sg) total (- p) (- v) =
  let '(ph, t, d) := phase_plan l sg total p v in (map neg_phase ph, t, - d).
Proof.
  induction l as [| [[t0 j0] a0] r IH]; intros total p v; cbn [phase_plan]; [reflexivity |]. rnum.
  unfold advance_position, advance_velocity. rnum.
  replace (- p + - v * t0 + a0 * - sg * t0 * t0 * / 2 + j0 * - sg * t0 * t0 * t0 / 6)
    with (- (p + v * t0 + a0 * sg * t0 * t0 * / 2 + j0 * sg * t0 * t0 * t0 / 6)) by field.
  replace (- v + a0 * - sg * t0 + j0 * - sg * t0 * t0 * / 2)
    with (- (v + a0 * sg * t0 + j0 * sg * t0 * t0 * / 2)) by field.
  rewrite IH. destruct (phase_plan r sg _ _ _) as [[ph t] d]. cbn [map].
  unfold neg_phase at 2. cbn. do 3 f_equal. f_equal; ring.
Qed.

Definition neg_profile (p : Profile (T := R)) : Profile := {|
  pr_phases := map neg_phase (pr_phases p); pr_duration := pr_duration p; pr_distance := - pr_distance p |}.

Lemma from_phase_plan_neg l sg : from_phase_plan l (- sg) = neg_profile (from_phase_plan l sg).
Proof.
  unfold from_phase_plan. rnum. pose proof (phase_plan_neg l sg 0 0 0) as E. rewrite Ropp_0 in E. rewrite E.
  destruct (phase_plan l sg 0 0 0) as [[ph t] d]. reflexivity.
Qed.

Lemma state_at_neg p t : state_at (neg_profile p) t = match state_at p t with Ok s => Ok (negate s) | Err e => Err e | Panic => Panic end.
Proof.
  unfold state_at. rnum. cbn [negb]. cbn [neg_profile pr_phases pr_duration pr_distance].
  assert (G : forall l s c, state_loop (map neg_phase l) s c = option_map negate (state_loop l s c)).
  { induction l as [| ph r IH]; intros s c; cbn [map state_loop]; [reflexivity |]. rnum.
    cbn [neg_phase ph_duration ph_jerk ph_position ph_velocity ph_acceleration].
    destruct (Rltb c (s + ph_duration ph)); [| apply IH].
    cbn [option_map]. unfold negate, advance_position, advance_velocity. rnum. f_equal.
    f_equal; cbn; try field; ring. }
  rewrite G. destruct (state_loop _ _ _); cbn [option_map]; [reflexivity |].
  unfold negate; cbn. do 2 f_equal; ring.
Qed.

Lemma plan_trapezoidal_neg d lim sg : plan_trapezoidal d lim (- sg) = neg_profile (plan_trapezoidal d lim sg).
Proof. unfold plan_trapezoidal, plan_still. rnum. destruct (Rleb _ _); apply from_phase_plan_neg. Qed.
Lemma plan_jerk_neg d lim j sg : plan_jerk_limited d lim j (- sg) = neg_profile (plan_jerk_limited d lim j sg).
Proof.
  unfold plan_jerk_limited, plan_still. rnum. destruct (Rleb _ _); [apply from_phase_plan_neg |].
  destruct (acceleration_ramp _ _ _). apply from_phase_plan_neg.
Qed.

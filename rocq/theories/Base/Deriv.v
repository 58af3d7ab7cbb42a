(** Derivatives of the interface's real functions, with Coquelicot's [is_derive]. *)
From Coq Require Import ZArith Reals Lra Lia.
From Coquelicot Require Import Coquelicot.
From Flocq Require Import Core.Raux.
From Verif Require Import Base.Scalar Base.RNum.
Local Open Scope R_scope.

Lemma locally_gt f (x c : R) : continuous f x -> c < f x -> locally x (fun y => c < f y).
Proof. intros C H. apply (C (fun z => c < z)). apply open_gt. exact H. Qed.
Lemma locally_lt f (x c : R) : continuous f x -> f x < c -> locally x (fun y => f y < c).
Proof. intros C H. apply (C (fun z => z < c)). apply open_lt. exact H. Qed.
Lemma locally_neq f (x c : R) : continuous f x -> f x <> c -> locally x (fun y => f y <> c).
Proof.
  intros C H. destruct (Rtotal_order (f x) c) as [L|[E|L]]; [|contradiction|].
  - generalize (locally_lt f x c C L). apply filter_imp. intros; lra.
  - generalize (locally_gt f x c C L). apply filter_imp. intros; lra.
Qed.

Lemma id_cont (x : R) : continuous (fun y : R => y) x.
Proof. apply continuous_id. Qed.
Lemma derive_cont (f : R -> R) (x l : R) : is_derive f x l -> continuous f x.
Proof. intros H. apply (ex_derive_continuous f x). exists l. exact H. Qed.

Lemma is_derive_eq (f : R -> R) (x l l' : R) : is_derive f x l -> l = l' -> is_derive f x l'.
Proof. intros H ->. exact H. Qed.

Lemma const_near (f : R -> R) (x : R) : locally x (fun y => f y = f x) -> is_derive f x 0.
Proof.
  intros H. apply (is_derive_ext_loc (fun _ => f x)).
  - revert H. apply filter_imp. intros; auto.
  - apply @is_derive_const.
Qed.

(** ** Step functions *)
Lemma floor_near (v : R) : (forall n : Z, v <> IZR n) -> locally v (fun w => Zfloor w = Zfloor v).
Proof.
  intros H. pose proof (Zfloor_lb v) as L. pose proof (Zfloor_ub v) as U. pose proof (H (Zfloor v)) as N.
  assert (A := locally_gt (fun y => y) v (IZR (Zfloor v)) (id_cont v) ltac:(lra)).
  assert (B := locally_lt (fun y => y) v (IZR (Zfloor v) + 1) (id_cont v) ltac:(lra)).
  generalize (filter_and _ _ A B). apply filter_imp. intros w [P Q]. apply Zfloor_imp.
  rewrite plus_IZR. simpl. lra.
Qed.
Lemma not_int_opp v : (forall n : Z, v <> IZR n) -> forall n : Z, - v <> IZR n.
Proof. intros H n E. apply (H (- n)%Z). rewrite opp_IZR. lra. Qed.
Lemma locally_opp v (P : R -> Prop) : locally (- v) P -> locally v (fun w => P (- w)).
Proof.
  intros H. assert (C : continuous (fun w : R => - w) v).
  { apply (continuous_opp (fun w : R => w)). apply continuous_id. }
  apply (C P). exact H.
Qed.
Lemma locally_shift v c (P : R -> Prop) : locally (v + c) P -> locally v (fun w => P (w + c)).
Proof.
  intros H. assert (C : continuous (fun w : R => w + c) v).
  { apply (continuous_plus (fun w : R => w) (fun _ => c)). apply continuous_id. apply continuous_const. }
  apply (C P). exact H.
Qed.
Lemma ceil_near (v : R) : (forall n : Z, v <> IZR n) -> locally v (fun w => Zceil w = Zceil v).
Proof.
  intros H. unfold Zceil. generalize (locally_opp v _ (floor_near (- v) (not_int_opp v H))).
  apply filter_imp. intros w ->. reflexivity.
Qed.
Lemma round_near (v : R) : (forall n : Z, v + /2 <> IZR n) -> locally v (fun w => Rround_away w = Rround_away v).
Proof.
  intros H. assert (H' : forall n : Z, - v + / 2 <> IZR n).
  { intros n E. apply (H (1 - n)%Z). rewrite minus_IZR. lra. }
  assert (F := locally_shift v (/2) _ (floor_near _ H)).
  assert (G := locally_opp v _ (locally_shift (- v) (/2) _ (floor_near _ H'))). cbv beta in F, G.
  unfold Rround_away. destruct (Rtotal_order v 0) as [L|[E|L]].
  - generalize (filter_and _ _ (locally_lt _ v 0 (id_cont v) L) (filter_and _ _ F G)). apply filter_imp.
    intros w (A & B & C). destruct (Rlt_dec w 0), (Rlt_dec v 0); try lra. rewrite C. reflexivity.
  - subst v. assert (Z0 : Zfloor (/2) = 0%Z) by (apply Zfloor_imp; simpl; lra).
    rewrite Rplus_0_l, Z0 in F. rewrite Ropp_0, Rplus_0_l, Z0 in G. rewrite Rplus_0_l, Z0.
    generalize (filter_and _ _ F G). apply filter_imp. intros w (B & C). 
    destruct (Rlt_dec w 0), (Rlt_dec 0 0); try lra; rewrite ?B, ?C; simpl; lra.
  - generalize (filter_and _ _ (locally_gt _ v 0 (id_cont v) L) (filter_and _ _ F G)). apply filter_imp.
    intros w (A & B & C). destruct (Rlt_dec w 0), (Rlt_dec v 0); try lra. rewrite B. reflexivity.
Qed.
Lemma trunc_near (v : R) : (forall n : Z, v = IZR n -> n = 0%Z) -> locally v (fun w => Ztrunc w = Ztrunc v).
Proof.
  intros H. destruct (Req_dec v 0) as [->|N].
  - assert (A := locally_gt (fun y => y) 0 (-1) (id_cont 0) ltac:(lra)).
    assert (B := locally_lt (fun y => y) 0 1 (id_cont 0) ltac:(lra)).
    generalize (filter_and _ _ A B). apply filter_imp. intros w [P Q]. rewrite Ztrunc_IZR with (n := 0%Z).
    destruct (Rle_dec 0 w).
    + rewrite Ztrunc_floor by lra. apply Zfloor_imp; simpl; lra.
    + rewrite Ztrunc_ceil by lra. apply Zceil_imp; simpl; lra.
  - assert (H' : forall n : Z, v <> IZR n) by (intros n E; pose proof (H n E); subst n; auto).
    destruct (Rdichotomy _ _ N) as [L|L].
    + generalize (filter_and _ _ (locally_lt _ v 0 (id_cont v) L) (ceil_near v H')). apply filter_imp.
      intros w (A & B). rewrite !Ztrunc_ceil by lra. exact B.
    + generalize (filter_and _ _ (locally_gt _ v 0 (id_cont v) L) (floor_near v H')). apply filter_imp.
      intros w (A & B). rewrite !Ztrunc_floor by lra. exact B.
Qed.

(** ** Cube root *)
Lemma Rcbrt_pos v : 0 < v -> 0 < Rcbrt v /\ Rcbrt v * Rcbrt v * Rcbrt v = v.
Proof.
  intros H. unfold Rcbrt. destruct (Req_EM_T v 0); [lra|]. destruct (Rlt_dec v 0); [lra|].
  split; [apply exp_pos|]. rewrite <- !Rpower_plus. replace (/3 + /3 + /3) with 1 by field. apply Rpower_1; auto.
Qed.
Lemma Rcbrt_opp v : Rcbrt (- v) = - Rcbrt v.
Proof.
  unfold Rcbrt. destruct (Req_EM_T v 0), (Req_EM_T (- v) 0), (Rlt_dec v 0), (Rlt_dec (- v) 0); try lra.
  rewrite Ropp_involutive. reflexivity.
Qed.
Lemma Rcbrt_cube v : Rcbrt v * Rcbrt v * Rcbrt v = v.
Proof.
  destruct (Rtotal_order v 0) as [L|[->|L]].
  - pose proof (Rcbrt_pos (- v) ltac:(lra)) as [_ E]. rewrite Rcbrt_opp in E. lra.
  - unfold Rcbrt. destruct (Req_EM_T 0 0); lra.
  - apply Rcbrt_pos; auto.
Qed.
Lemma Rcbrt_neq0 v : v <> 0 -> Rcbrt v <> 0.
Proof. intros H E. pose proof (Rcbrt_cube v). rewrite E in *. lra. Qed.
Lemma is_derive_cbrt v : v <> 0 -> is_derive Rcbrt v (/ (3 * Rcbrt v * Rcbrt v)).
Proof.
  assert (P : forall v, 0 < v -> is_derive Rcbrt v (/ (3 * Rcbrt v * Rcbrt v))).
  { clear v. intros v H. apply (is_derive_ext_loc (fun w => Rpower w (/3))).
    - generalize (locally_gt _ v 0 (id_cont v) H). apply filter_imp. intros w W. unfold Rcbrt.
      destruct (Req_EM_T w 0), (Rlt_dec w 0); try lra. 
    - eapply is_derive_eq. { apply is_derive_Reals. apply derivable_pt_lim_power. exact H. }
      pose proof (Rcbrt_pos v H) as [A B]. assert (E : Rcbrt v = Rpower v (/3)).
      { unfold Rcbrt. destruct (Req_EM_T v 0), (Rlt_dec v 0); try lra. }
      apply Rmult_eq_reg_r with (r := Rcbrt v * Rcbrt v * Rcbrt v); [|rewrite B; lra].
      transitivity (/3 * Rcbrt v); [|field; lra].
      rewrite B. rewrite Rmult_assoc. rewrite <- (Rpower_1 v) at 2 by auto. rewrite <- Rpower_plus.
      replace (/3 - 1 + 1) with (/3) by lra. rewrite E. reflexivity. }
  intros N. destruct (Rdichotomy _ _ N) as [L|L]; [|auto].
  apply (is_derive_ext (fun w => - Rcbrt (- w))). { intros t. rewrite Rcbrt_opp. lra. }
  eapply is_derive_eq.
  { apply @is_derive_opp. apply (is_derive_comp Rcbrt (fun w => - w)). apply P; lra.
    apply @is_derive_opp. apply @is_derive_id. }
  rewrite Rcbrt_opp. pose proof (Rcbrt_neq0 v N). cbv [scal opp mult one]; cbn. unfold mult; cbn. field. auto.
Qed.

(** ** Two-argument arctangent, away from the cut *)
Lemma atan_inv_pos z : 0 < z -> Ratan.atan (/ z) = PI / 2 - Ratan.atan z.
Proof. apply atan_inv. Qed.
Lemma Ratan2_up y x : 0 < y -> Ratan2 y x = PI / 2 - Ratan.atan (x / y).
Proof.
  intros H. unfold Ratan2. destruct (Rlt_dec 0 x).
  - rewrite <- atan_inv by (apply Rdiv_lt_0_compat; lra). f_equal. field. lra.
  - destruct (Rlt_dec x 0).
    + destruct (Rlt_dec y 0); [lra|].
      assert (E : y / x = - (/ ((- x) / y))) by (field; lra). rewrite E, atan_opp.
      rewrite atan_inv by (apply Rdiv_lt_0_compat; lra).
      replace (- x / y) with (- (x / y)) by (field; lra). rewrite atan_opp. lra.
    + assert (x = 0) by lra. subst. destruct (Rlt_dec 0 y); [|lra].
      replace (0 / y) with 0 by (field; lra). rewrite atan_0. lra.
Qed.
Lemma Ratan2_down y x : y < 0 -> Ratan2 y x = - (PI / 2) - Ratan.atan (x / y).
Proof.
  intros H. unfold Ratan2. destruct (Rlt_dec 0 x).
  - assert (E : y / x = - (/ (x / - y))) by (field; lra). rewrite E, atan_opp.
    rewrite atan_inv by (apply Rdiv_lt_0_compat; lra).
    replace (x / - y) with (- (x / y)) by (field; lra). rewrite atan_opp. lra.
  - destruct (Rlt_dec x 0).
    + destruct (Rlt_dec y 0); [|lra].
      assert (E : y / x = / (x / y)) by (field; lra). rewrite E.
      assert (0 < x / y). { replace (x / y) with ((- x) / (- y)) by (field; lra). apply Rdiv_lt_0_compat; lra. }
      rewrite atan_inv by auto. lra.
    + assert (x = 0) by lra. subst. destruct (Rlt_dec 0 y); [lra|]. destruct (Rlt_dec y 0); [|lra].
      replace (0 / y) with 0 by (field; lra). rewrite atan_0. lra.
Qed.

Lemma is_derive_quot (u v : R -> R) (t du dv : R) : is_derive u t du -> is_derive v t dv -> v t <> 0 ->
  is_derive (fun s => u s / v s) t ((du * v t - u t * dv) / (v t * v t)).
Proof.
  intros U V N. eapply is_derive_eq. { apply (is_derive_div u v t du dv U V N). }
  cbn. field. auto.
Qed.
Lemma is_derive_prod (u v : R -> R) (t du dv : R) : is_derive u t du -> is_derive v t dv ->
  is_derive (fun s => u s * v s) t (du * v t + u t * dv).
Proof. intros U V. apply (is_derive_mult u v t du dv U V). intros a b; apply Rmult_comm. Qed.
Lemma is_derive_sum (u v : R -> R) (t du dv : R) : is_derive u t du -> is_derive v t dv ->
  is_derive (fun s => u s + v s) t (du + dv).
Proof. intros U V. apply (is_derive_plus u v t du dv U V). Qed.
Lemma is_derive_diff (u v : R -> R) (t du dv : R) : is_derive u t du -> is_derive v t dv ->
  is_derive (fun s => u s - v s) t (du - dv).
Proof. intros U V. apply (is_derive_minus u v t du dv U V). Qed.
Lemma is_derive_neg (u : R -> R) (t du : R) : is_derive u t du -> is_derive (fun s => - u s) t (- du).
Proof. intros U. apply (is_derive_opp u t du U). Qed.
Lemma is_derive_chain (f u : R -> R) (t df du : R) : is_derive f (u t) df -> is_derive u t du ->
  is_derive (fun s => f (u s)) t (df * du).
Proof.
  intros F U. eapply is_derive_eq. { apply (is_derive_comp f u t df du F U). }
  cbn. unfold mult; cbn. ring.
Qed.
Lemma is_derive_cst (c t : R) : is_derive (fun _ : R => c) t 0.
Proof. apply @is_derive_const. Qed.
Lemma is_derive_var (t : R) : is_derive (fun s : R => s) t 1.
Proof. apply @is_derive_id. Qed.

Lemma is_derive_atan' t : is_derive Ratan.atan t (/ (1 + t * t)).
Proof.
  apply is_derive_Reals. pose proof (derivable_pt_lim_atan t) as H.
  replace (/ (1 + t * t)) with (/ (1 + t ^ 2)) by (f_equal; ring). exact H.
Qed.

Lemma is_derive_atan2 (y x : R -> R) (t dy dx : R) : is_derive y t dy -> is_derive x t dx ->
  0 < x t \/ y t <> 0 ->
  is_derive (fun s => Ratan2 (y s) (x s)) t ((x t * dy - y t * dx) / (y t * y t + x t * x t)).
Proof.
  intros Y X H.
  assert (Cx := derive_cont _ _ _ X). assert (Cy := derive_cont _ _ _ Y).
  destruct (Rlt_dec 0 (x t)) as [P|P]; [|assert (N : y t <> 0) by (destruct H; auto; lra)].
  - apply (is_derive_ext_loc (fun s => Ratan.atan (y s / x s))).
    + generalize (locally_gt _ t 0 Cx P). apply filter_imp. intros s S. unfold Ratan2. destruct (Rlt_dec 0 (x s)); lra.
    + eapply is_derive_eq.
      { apply (is_derive_chain Ratan.atan (fun s => y s / x s)). apply is_derive_atan'. apply is_derive_quot; eauto. lra. }
      field. repeat split; try lra; nra.
  - destruct (Rdichotomy _ _ N) as [L|L].
    + apply (is_derive_ext_loc (fun s => - (PI / 2) - Ratan.atan (x s / y s))).
      * generalize (locally_lt _ t 0 Cy L). apply filter_imp. intros s S. symmetry. apply Ratan2_down; auto.
      * eapply is_derive_eq.
        { apply is_derive_diff. apply is_derive_cst. apply (is_derive_chain Ratan.atan (fun s => x s / y s)).
          apply is_derive_atan'. apply is_derive_quot; eauto. }
        field. repeat split; try lra; nra.
    + apply (is_derive_ext_loc (fun s => PI / 2 - Ratan.atan (x s / y s))).
      * generalize (locally_gt _ t 0 Cy L). apply filter_imp. intros s S. symmetry. apply Ratan2_up; auto.
      * eapply is_derive_eq.
        { apply is_derive_diff. apply is_derive_cst. apply (is_derive_chain Ratan.atan (fun s => x s / y s)).
          apply is_derive_atan'. apply is_derive_quot; eauto. }
        field. repeat split; try lra; nra.
Qed.

(** ** The elementary functions *)
Lemma is_derive_sqrt' v : 0 < v -> is_derive R_sqrt.sqrt v (/ (2 * R_sqrt.sqrt v)).
Proof. intros H. apply is_derive_Reals. apply derivable_pt_lim_sqrt. exact H. Qed.
Lemma is_derive_sin' v : is_derive Rtrigo_def.sin v (Rtrigo_def.cos v).
Proof. apply is_derive_Reals. apply derivable_pt_lim_sin. Qed.
Lemma is_derive_cos' v : is_derive Rtrigo_def.cos v (- Rtrigo_def.sin v).
Proof. apply is_derive_Reals. apply derivable_pt_lim_cos. Qed.
Lemma is_derive_exp' v : is_derive Rtrigo_def.exp v (Rtrigo_def.exp v).
Proof. apply is_derive_Reals. apply derivable_pt_lim_exp. Qed.
Lemma is_derive_ln' v : 0 < v -> is_derive ln v (/ v).
Proof. intros H. apply is_derive_Reals. apply derivable_pt_lim_ln. exact H. Qed.
Lemma is_derive_tan' v : Rtrigo_def.cos v <> 0 -> is_derive Rtrigo1.tan v (1 + Rtrigo1.tan v * Rtrigo1.tan v).
Proof.
  intros H. eapply is_derive_eq. { unfold Rtrigo1.tan. apply (is_derive_quot Rtrigo_def.sin Rtrigo_def.cos).
    apply is_derive_sin'. apply is_derive_cos'. exact H. }
  unfold Rtrigo1.tan. field. exact H.
Qed.
Lemma is_derive_abs' v : v <> 0 -> is_derive Rabs v (if Rltb v 0 then -1 else 1).
Proof.
  intros H. unfold Rltb. destruct (Rlt_dec v 0).
  - apply (is_derive_ext_loc (fun w => - w)).
    + generalize (locally_lt _ v 0 (id_cont v) r). apply filter_imp. intros w W. rewrite Rabs_left; auto.
    + apply is_derive_neg. apply is_derive_var.
  - apply (is_derive_ext_loc (fun w => w)).
    + generalize (locally_gt _ v 0 (id_cont v) ltac:(lra)). apply filter_imp. intros w W. rewrite Rabs_right; lra.
    + apply is_derive_var.
Qed.

(** ** Hyperbolic and inverse functions as the trait's defaults compute them *)
Lemma atan_default x : Ratan2 x 1 = Ratan.atan x.
Proof. unfold Ratan2. destruct (Rlt_dec 0 1); [|lra]. f_equal. field. Qed.
Lemma asin_default x : -1 < x < 1 -> Ratan2 x (R_sqrt.sqrt (1 - x * x)) = Ratan.asin x.
Proof.
  intros H. assert (P : 0 < R_sqrt.sqrt (1 - x * x)) by (apply sqrt_lt_R0; nra).
  unfold Ratan2. destruct (Rlt_dec 0 (R_sqrt.sqrt (1 - x * x))); [|lra].
  rewrite asin_atan by auto. unfold Rsqr. reflexivity.
Qed.
Lemma acos_default x : -1 < x < 1 -> Ratan2 (R_sqrt.sqrt (1 - x * x)) x = Ratan.acos x.
Proof.
  intros H. assert (P : 0 < R_sqrt.sqrt (1 - x * x)) by (apply sqrt_lt_R0; nra).
  unfold Ratan2. destruct (Rlt_dec 0 x).
  - rewrite acos_atan by auto. unfold Rsqr. reflexivity.
  - destruct (Rlt_dec x 0).
    + destruct (Rlt_dec (R_sqrt.sqrt (1 - x * x)) 0); [lra|].
      replace (Ratan.acos x) with (Ratan.acos (- - x)) by (f_equal; lra). rewrite acos_opp. rewrite acos_atan by lra.
      replace (1 - Rsqr (- x)) with (1 - x * x) by (unfold Rsqr; ring).
      replace (R_sqrt.sqrt (1 - x * x) / - x) with (- (R_sqrt.sqrt (1 - x * x) / x)) by (field; lra).
      rewrite atan_opp. lra.
    + assert (x = 0) by lra. subst. destruct (Rlt_dec 0 (R_sqrt.sqrt (1 - 0 * 0))); [|lra].
      rewrite acos_0. reflexivity.
Qed.
Lemma cosh_pos x : 0 < Rtrigo_def.cosh x.
Proof. unfold Rtrigo_def.cosh. pose proof (exp_pos x). pose proof (exp_pos (- x)). lra. Qed.

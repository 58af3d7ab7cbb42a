(** Sturm's theorem for the counting chain, over the reals. *)
From Coq Require Import ZArith List Bool Arith Reals Lra Lia Permutation Sorted Classical_Prop.
From Coquelicot Require Import Coquelicot.
From Verif Require Import Base.Scalar Base.Lists Base.RNum Base.Series Base.PolyR Model.Errors Model.Polynomial Model.Roots
  Spec.Polynomial Spec.Roots Proofs.DiffAlg Proofs.Polynomial Proofs.Roots.
Import ListNotations.
Local Open Scope R_scope.

(** ** The remainder *)
Lemma remainder_loop_divide (d : list R) dd h : forall n w q, (n <= length q)%nat ->
  exists q', divide_loop d dd h n w q = Ok (remainder_loop d dd h n w, q').
Proof.
  induction n as [|n IH]; intros w q Hq; cbn [divide_loop remainder_loop]; [eauto|].
  destruct (Nat.ltb n dd); [eauto|]. destruct (eqb (nth n w zero) zero); [apply IH; lia|].
  destruct (nth_error q (n - dd)) as [slot|] eqn:E; [|apply nth_error_None in E; lia].
  apply IH. rewrite set_nth_length. lia.
Qed.
Lemma remainder_spec p d dd : deg_eq d dd -> exists r q, remainder p d = Some r /\ length r = length p /\ deg_lt r dd /\
  forall x, peval p x = peval q x * peval d x + peval r x.
Proof.
  intros D. unfold remainder. pose proof (degree_spec d) as S. destruct (poly_degree d) as [n|]; [|exfalso; apply (proj1 D); apply S].
  assert (n = dd) by (apply (deg_eq_unique d); auto). subst n.
  unfold poly_coefficient. assert (Hd : (dd < length d)%nat) by (apply (deg_eq_lt d); [exact D|apply deg_lt_length]).
  rewrite (nth_error_nth' d 0 Hd).
  destruct (remainder_loop_divide d dd (cf d dd) (length p) p (repeat 0 (length p)) ltac:(rewrite repeat_length; lia)) as (q' & E).
  pose proof (divide_loop_spec p d dd (length p) D (length p) p (repeat 0 (length p)) eq_refl (repeat_length _ _) ltac:(lia) (deg_lt_length p)
    ltac:(intros x; rewrite peval_repeat0; ring)) as G. rewrite E in G. destruct G as (L & _ & Dr & V).
  eexists _, q'. split; [reflexivity|]. auto.
Qed.

(** ** Variations in sign, zeros skipped *)
Fixpoint vr (prev : option bool) (l : list R) : nat :=
  match l with
  | [] => 0
  | v :: l => if Reqb v 0 then vr prev l
              else ((match prev with Some b => if negb (Bool.eqb b (Rltb 0 v)) then 1 else 0 | None => 0 end) + vr (Some (Rltb 0 v)) l)%nat
  end.
Lemma sign_changes_vr (chain : list (list R)) x : sign_changes chain x = vr None (map (fun p => peval p x) chain).
Proof.
  unfold sign_changes. match goal with |- fst (fold_left ?g _ _) = _ => set (f := g) end.
  assert (G : forall n prev, fst (fold_left f chain (n, prev)) = (n + vr prev (map (fun p => peval p x) chain))%nat).
  { induction chain as [|p chain IH]; intros n prev; [cbn; lia|]. cbn [fold_left map vr]. unfold f at 2. cbv beta iota. rewrite evaluate_R. rnum.
    destruct (Reqb (peval p x) 0); [apply IH|]. rewrite IH. destruct prev as [b|]; [|lia]. destruct (negb (Bool.eqb b (Rltb 0 (peval p x)))); lia. }
  apply G.
Qed.
(** a common non-zero factor does not matter *)
Lemma vr_scale k : k <> 0 -> forall l prev, vr (option_map (fun b => if Rltb 0 k then b else negb b) prev) (map (Rmult k) l) = vr prev l.
Proof.
  intros Hk. induction l as [|v l IH]; intros prev; [reflexivity|]. cbn [map vr]. unfold Reqb at 1.
  destruct (Req_EM_T (k * v) 0) as [Z|N].
  - apply Rmult_integral in Z. destruct Z as [Z|Z]; [contradiction|]. unfold Reqb. destruct (Req_EM_T v 0); [apply IH|contradiction].
  - assert (Nv : v <> 0) by (intros ->; apply N; ring). unfold Reqb. destruct (Req_EM_T v 0); [contradiction|].
    assert (Sg : Rltb 0 (k * v) = (if Rltb 0 k then Rltb 0 v else negb (Rltb 0 v))).
    { destruct (Rltb 0 k) eqn:Ek; [apply Rltb_true in Ek|apply Rltb_false in Ek]; destruct (Rltb 0 v) eqn:Ev; [apply Rltb_true in Ev|apply Rltb_false in Ev|apply Rltb_true in Ev|apply Rltb_false in Ev]; cbn [negb]; try (apply Rltb_true); try (apply Rltb_false).
      - apply Rmult_lt_0_compat; auto.
      - assert (k * (- v) >= 0) by (apply Rle_ge, Rmult_le_pos; lra). lra.
      - assert ((- k) * v >= 0) by (apply Rle_ge, Rmult_le_pos; lra). lra.
      - replace (k * v) with ((- k) * (- v)) by ring. apply Rmult_lt_0_compat; lra. }
    rewrite Sg. f_equal.
    + destruct prev as [b|]; [|reflexivity]. cbn. destruct (Rltb 0 k); [reflexivity|]. destruct b, (Rltb 0 v); reflexivity.
    + rewrite <- (IH (Some (Rltb 0 v))). reflexivity.
Qed.

(** ** Chains *)
(** each entry is a multiple of the next one, less the one after; the last one divides the one before *)
Inductive euclid : list (list R) -> Prop :=
| eu_two a g q : (forall x, peval a x = peval q x * peval g x) -> euclid [a; g]
| eu_cons a b c l q : euclid (b :: c :: l) -> (forall x, peval a x = peval q x * peval b x - peval c x) -> euclid (a :: b :: c :: l).
(** the same with a last entry that is one *)
Inductive sturm : list (list R) -> Prop :=
| st_two s : sturm [s; [1]]
| st_cons a b c l q : sturm (b :: c :: l) -> (forall x, peval a x = peval q x * peval b x - peval c x) -> sturm (a :: b :: c :: l).
Lemma euclid_factor chain : euclid chain -> exists s, sturm s /\ length s = length chain /\
  forall x, map (fun p => peval p x) chain = map (Rmult (peval (last chain []) x)) (map (fun p => peval p x) s).
Proof.
  induction 1 as [a g q E|a b c l q H IH E].
  - exists [q; [1]]. split; [constructor|]. split; [reflexivity|]. intros x. cbn. rewrite E. f_equal; [ring|]. f_equal. ring.
  - destruct IH as (s & S & L & F). destruct s as [|s0 [|s1 s]]; [discriminate|discriminate|].
    exists (padd (pmul q s0) (map Ropp s1) :: s0 :: s1 :: s). split.
    { apply (st_cons _ _ _ _ q); [exact S|]. intros x. rewrite peval_padd, peval_pmul, peval_opp. ring. }
    split; [cbn in *; lia|]. intros x. specialize (F x). change (last (a :: b :: c :: l) []) with (last (b :: c :: l) []). set (G := peval (last (b :: c :: l) []) x) in *. clearbody G.
    cbn [map] in *. injection F as F0 F1 F2. rewrite F2. rewrite <- F0, <- F1. f_equal. rewrite E, F0, F1, peval_padd, peval_pmul, peval_opp. ring.
Qed.

(** ** Near a point *)
Definition near (z : R) (P : R -> Prop) : Prop := exists e, 0 < e /\ forall x, Rabs (x - z) < e -> P x.
Lemma near_and z P Q : near z P -> near z Q -> near z (fun x => P x /\ Q x).
Proof.
  intros (e & He & H) (f & Hf & G). exists (Rmin e f). split; [apply Rmin_glb_lt; auto|]. intros x Hx. pose proof (Rmin_l e f). pose proof (Rmin_r e f). split; [apply H|apply G]; lra.
Qed.
Lemma near_impl z (P Q : R -> Prop) : (forall x, P x -> Q x) -> near z P -> near z Q.
Proof. intros I (e & He & H). exists e. split; auto. Qed.
Lemma near_true z (P : R -> Prop) : (forall x, P x) -> near z P.
Proof. intros H. exists 1. split; [lra|auto]. Qed.
Lemma near_sign c z : peval c z <> 0 -> near z (fun x => peval c x <> 0 /\ Rltb 0 (peval c x) = Rltb 0 (peval c z)).
Proof.
  intros N. pose proof (continuity_peval c z) as C. set (v := Rabs (peval c z)). assert (V : 0 < v) by (apply Rabs_pos_lt; exact N).
  destruct (C v V) as (e & He & H). exists e. split; [exact He|]. intros x Hx.
  assert (D : Rabs (peval c x - peval c z) < v).
  { destruct (Req_dec x z) as [->|Ne]; [rewrite Rminus_diag_eq, Rabs_R0 by reflexivity; exact V|]. apply H. split; [split; [exact I|auto]|exact Hx]. }
  unfold v in D. destruct (Rltb 0 (peval c z)) eqn:E; [apply Rltb_true in E|apply Rltb_false in E].
  - rewrite (Rabs_pos_eq (peval c z)) in D by lra. apply Rabs_def2 in D. split; [lra|apply Rltb_true; lra].
  - rewrite (Rabs_left (peval c z)) in D by lra. apply Rabs_def2 in D. split; [lra|apply Rltb_false; lra].
Qed.
Lemma sturm_not_both a b l z : sturm (a :: b :: l) -> peval a z = 0 -> peval b z <> 0.
Proof.
  intros H. remember (a :: b :: l) as s eqn:E. revert a b l E. induction H as [s|a b c l q H IH R]; intros a' b' l' E Z.
  - injection E as <- <- <-. cbn. lra.
  - injection E as <- <- <-. intros Z'. apply (IH b c l eq_refl Z'). specialize (R z). rewrite Z, Z' in R. lra.
Qed.
Lemma Rltb_opp v : v <> 0 -> Rltb 0 (- v) = negb (Rltb 0 v).
Proof. intros N. destruct (Rltb 0 v) eqn:E; [apply Rltb_true in E|apply Rltb_false in E]; cbn; [apply Rltb_false|apply Rltb_true]; lra. Qed.
(** from a non-zero entry on, the variations do not change near [z] *)
Lemma sturm_steady z : forall n a l, (length l <= n)%nat -> (l = [] \/ sturm (a :: l)) -> peval a z <> 0 ->
  near z (fun x => forall prev, vr prev (map (fun p => peval p x) (a :: l)) = vr prev (map (fun p => peval p z) (a :: l))).
Proof.
  induction n as [|n IH]; intros a l Hl S Na.
  { destruct l; [|cbn in Hl; lia]. eapply near_impl; [|apply (near_sign a z Na)]. intros x [Nx Sx] prev. cbn [map vr]. rewrite Sx. rewrite (proj2 (Reqb_false _ _) Nx), (proj2 (Reqb_false _ _) Na). reflexivity. }
  destruct l as [|b l].
  { eapply near_impl; [|apply (near_sign a z Na)]. intros x [Nx Sx] prev. cbn [map vr]. rewrite Sx. rewrite (proj2 (Reqb_false _ _) Nx), (proj2 (Reqb_false _ _) Na). reflexivity. }
  destruct S as [S|S]; [discriminate|]. cbn [length] in Hl.
  assert (Tail : l = [] \/ sturm (b :: l)). { inversion S; subst; [left; reflexivity|right; assumption]. }
  destruct (Req_dec (peval b z) 0) as [Zb|Nb].
  - (* the entry after next has the opposite sign *)
    inversion S as [s E|a' b' c l' q S' R E]; subst; [exfalso; cbn in Zb; lra|].
    assert (Nc : peval c z <> 0) by (apply (sturm_not_both b c l' z S' Zb)).
    assert (Opp : peval a z = - peval c z) by (rewrite R, Zb; ring).
    assert (Tail' : l' = [] \/ sturm (c :: l')). { inversion S'; subst; [left; reflexivity|right; assumption]. }
    pose proof (IH c l' ltac:(cbn in Hl; lia) Tail' Nc) as G.
    eapply near_impl; [|apply (near_and _ _ _ (near_sign a z Na) (near_and _ _ _ (near_sign c z Nc) G))].
    intros x [[Nx Sx] [[Ncx Scx] Gx]] prev. cbn [map vr]. cbn [map] in Gx.
    rewrite (proj2 (Reqb_false (peval a x) 0) Nx), (proj2 (Reqb_false (peval a z) 0) Na), (proj2 (Reqb_true (peval b z) 0) Zb), Sx.
    rewrite Opp, Rltb_opp by exact Nc. f_equal.
    destruct (Reqb (peval b x) 0).
    + specialize (Gx (Some (negb (Rltb 0 (peval c z))))). cbn [vr] in Gx. exact Gx.
    + pose proof (Gx (Some (Rltb 0 (peval b x)))) as G1. cbn [vr] in G1. rewrite G1. clear G1.
      rewrite (proj2 (Reqb_false (peval c z) 0) Nc). destruct (Rltb 0 (peval b x)), (Rltb 0 (peval c z)); cbn; lia.
  - pose proof (IH b l ltac:(lia) Tail Nb) as G.
    eapply near_impl; [|apply (near_and _ _ _ (near_sign a z Na) G)].
    intros x [[Nx Sx] Gx] prev. cbn [map vr]. cbn [map] in Gx.
    rewrite (proj2 (Reqb_false (peval a x) 0) Nx), (proj2 (Reqb_false (peval a z) 0) Na), Sx. f_equal. specialize (Gx (Some (Rltb 0 (peval a z)))). exact Gx.
Qed.

(** ** Zeros and their multiplicity *)
Definition nonzero (c : list R) : Prop := exists x, peval c x <> 0.
Lemma shorter c z : peval c z = 0 -> c <> [] -> exists q, (length q < length c)%nat /\ forall x, peval c x = (x - z) * peval q x.
Proof.
  intros Z N. destruct c as [|a c]; [congruence|]. destruct (sdiv_last z a c) as (q & E & L). exists q. split; [cbn; lia|].
  intros x. rewrite (sdiv_eval z (a :: c) x), Z, E, peval_app. cbn [peval]. ring.
Qed.
Lemma factor_out z : forall n c, (length c <= n)%nat -> nonzero c -> exists m h, peval h z <> 0 /\ forall x, peval c x = (x - z) ^ m * peval h x.
Proof.
  induction n as [|n IH]; intros c Hc (x0 & N0); [destruct c; [cbn in N0; lra|cbn in Hc; lia]|].
  destruct (Req_dec (peval c z) 0) as [Z|N].
  - assert (Nc : c <> []) by (intros ->; cbn in N0; lra). destruct (shorter c z Z Nc) as (q & L & E).
    destruct (IH q ltac:(lia)) as (m & h & Nh & H); [exists x0; intros Q; apply N0; rewrite E, Q; ring|].
    exists (S m), h. split; [exact Nh|]. intros x. rewrite E, H. cbn [pow]. ring.
  - exists 0%nat, c. split; [exact N|]. intros x. cbn. ring.
Qed.
Lemma zeros_exist : forall n c, (length c <= n)%nat -> nonzero c -> exists L, NoDup L /\ forall x, In x L <-> peval c x = 0.
Proof.
  induction n as [|n IH]; intros c Hc (x0 & N0); [destruct c; [cbn in N0; lra|cbn in Hc; lia]|].
  destruct (classic (exists z, peval c z = 0)) as [(z & Z)|No].
  - assert (Nc : c <> []) by (intros ->; cbn in N0; lra). destruct (shorter c z Z Nc) as (q & L & E).
    destruct (IH q ltac:(lia)) as (M & Nd & H); [exists x0; intros Q; apply N0; rewrite E, Q; ring|].
    assert (G : forall x, (x = z \/ In x M) <-> peval c x = 0).
    { intros x. rewrite H, E. split; [intros [->| ->]; ring|]. intros Q. apply Rmult_integral in Q. destruct Q; [left; lra|right; auto]. }
    destruct (In_dec Req_EM_T z M) as [I|I].
    + exists M. split; [exact Nd|]. intros x. rewrite <- G. split; [auto|]. intros [->|]; auto.
    + exists (z :: M). split; [constructor; auto|]. intros x. rewrite <- G. cbn. intuition.
  - exists []. split; [constructor|]. intros x. split; [easy|]. intros Z. apply No. eauto.
Qed.
Lemma pow_nz x m : x <> 0 -> 0 < x ^ m * x ^ m.
Proof.
  intros N. pose proof (pow_nonzero x m N) as P. set (y := x ^ m) in *. destruct (Rlt_dec y 0); [replace (y * y) with ((- y) * (- y)) by ring|]; apply Rmult_lt_0_compat; lra.
Qed.
(** around a zero: p = (x-z)^(m+1) h and p' = (x-z)^m k with h and k non-zero at z, of the same sign *)
Lemma around_zero p z : nonzero p -> peval p z = 0 -> exists m h k, peval h z <> 0 /\ 0 < peval h z * peval k z /\
  (forall x, peval p x = (x - z) ^ S m * peval h x) /\ (forall x, peval (poly_derivative p) x = (x - z) ^ m * peval k x).
Proof.
  intros N Z. destruct (factor_out z (length p) p (le_n _) N) as (m & h & Nh & E). destruct m as [|m].
  { exfalso. apply Nh. rewrite E in Z. cbn in Z. lra. }
  set (k := padd (map (fun a => a * INR (S m)) h) (pmul [- z; 1] (poly_derivative h))). exists m, h, k. split; [exact Nh|].
  assert (Ek : forall x, peval k x = INR (S m) * peval h x + (x - z) * peval (poly_derivative h) x).
  { intros x. unfold k. rewrite peval_padd, peval_map_scale, peval_pmul. cbn [peval]. ring. }
  split.
  { rewrite Ek. replace (z - z) with 0 by ring. replace (peval h z * (INR (S m) * peval h z + 0 * peval (poly_derivative h) z)) with (INR (S m) * (peval h z ^ 1 * peval h z ^ 1)) by ring.
    apply Rmult_lt_0_compat; [apply lt_0_INR; lia|apply pow_nz; exact Nh]. }
  split; [exact E|]. intros x. pose proof (derivative_is_derive p x) as D.
  assert (D2 : is_derive (peval p) x ((x - z) ^ m * peval k x)).
  { apply (is_derive_ext (fun x => (x - z) ^ S m * peval h x)); [intros t; symmetry; apply E|].
    pose proof (derivative_is_derive h x) as Dh. set (f := peval h) in *. set (df := peval (poly_derivative h)) in *.
    evar_last; [apply (is_derive_mult (fun x => (x - z) ^ S m) f x); [auto_derive; [exact I|reflexivity]|exact Dh|intros; apply Rmult_comm]|].
    rewrite Ek. fold f df. change plus with Rplus. change mult with Rmult. cbv beta.
    match goal with |- context [match m with O => 1 | S _ => INR m + 1 end] => change (match m with O => 1 | S _ => INR m + 1 end) with (INR (S m)) end.
    cbn [pow]. replace (x + - z) with (x - z) by ring. ring. }
  apply is_derive_unique in D. apply is_derive_unique in D2. congruence.
Qed.
Lemma derivative_sign p z : nonzero p -> peval p z = 0 ->
  near z (fun x => (x < z -> peval p x * peval (poly_derivative p) x < 0) /\ (z < x -> 0 < peval p x * peval (poly_derivative p) x)).
Proof.
  intros N Z. destruct (around_zero p z N Z) as (m & h & k & Nh & Hk & E & D).
  assert (Nk : peval (pmul h k) z <> 0) by (rewrite peval_pmul; lra).
  eapply near_impl; [|apply (near_sign (pmul h k) z Nk)]. intros x [_ S]. rewrite !peval_pmul in S. rewrite (proj2 (Rltb_true _ _) Hk) in S. apply Rltb_true in S.
  rewrite E, D. replace ((x - z) ^ Datatypes.S m * peval h x * ((x - z) ^ m * peval k x)) with ((x - z) * (((x - z) ^ m * (x - z) ^ m) * (peval h x * peval k x))) by (cbn [pow]; ring).
  split; intros Hx; (assert (P : 0 < (x - z) ^ m * (x - z) ^ m * (peval h x * peval k x)) by (apply Rmult_lt_0_compat; [apply pow_nz; lra|exact S])).
  - assert (0 < (z - x) * ((x - z) ^ m * (x - z) ^ m * (peval h x * peval k x))) by (apply Rmult_lt_0_compat; lra). lra.
  - apply Rmult_lt_0_compat; lra.
Qed.

(** ** Counting *)
Definition upto (L : list R) (x : R) : nat := length (filter (fun r => Rleb r x) L).
Lemma upto_cons r L x : upto (r :: L) x = ((if Rleb r x then 1 else 0) + upto L x)%nat.
Proof. unfold upto. cbn [filter]. destruct (Rleb r x); reflexivity. Qed.
Lemma upto_near L z : NoDup L -> near z (fun x => (z <= x -> upto L x = upto L z) /\ (x < z -> In z L -> S (upto L x) = upto L z) /\ (x < z -> ~ In z L -> upto L x = upto L z)).
Proof.
  induction 1 as [|r L Nr Nd IH]; [apply near_true; intros x; repeat split; cbn; auto; easy|].
  destruct (Req_dec r z) as [->|Ne].
  - eapply near_impl; [|exact IH]. intros x (A & B & C). rewrite !upto_cons. replace (Rleb z z) with true by (symmetry; apply Rleb_true; lra). repeat split.
    + intros H. rewrite (proj2 (Rleb_true z x) H), A by auto. reflexivity.
    + intros H _. rewrite (proj2 (Rleb_false z x) H), C by auto. reflexivity.
    + intros _ H. exfalso. apply H. left; reflexivity.
  - assert (Nr' : near z (fun x => Rleb r x = Rleb r z)).
    { exists (Rabs (r - z)). split; [apply Rabs_pos_lt; lra|]. intros x Hx. destruct (Rlt_dec r z).
      - rewrite (Rabs_left (r - z)) in Hx by lra. apply Rabs_def2 in Hx. rewrite (proj2 (Rleb_true r x)), (proj2 (Rleb_true r z)) by lra. reflexivity.
      - rewrite (Rabs_pos_eq (r - z)) in Hx by lra. apply Rabs_def2 in Hx. rewrite (proj2 (Rleb_false r x)), (proj2 (Rleb_false r z)) by lra. reflexivity. }
    eapply near_impl; [|apply (near_and _ _ _ Nr' IH)]. intros x (E & A & B & C). rewrite !upto_cons, E. repeat split.
    + intros H. rewrite A by auto. reflexivity.
    + intros H [I|I]; [contradiction|]. rewrite <- B by auto. lia.
    + intros H I. rewrite C; auto. intros J. apply I. right; exact J.
Qed.
Lemma locally_constant (f : R -> nat) : (forall z, near z (fun x => f x = f z)) -> forall a b, f a = f b.
Proof.
  intros H a b. apply INR_eq.
  assert (D : forall x, is_derive (fun t => INR (f t)) x 0).
  { intros x. apply (is_derive_ext_loc (fun _ => INR (f x))); [|apply (is_derive_const (INR (f x)) x)].
    destruct (H x) as (e & He & G). exists (mkposreal e He). intros y Hy. rewrite (G y Hy). reflexivity. }
  destruct (MVT_gen (fun t => INR (f t)) a b (fun _ => 0)) as (c & _ & E).
  - intros x _. apply D.
  - intros x _. apply continuity_pt_filterlim. apply (ex_derive_continuous (fun t => INR (f t))). exists 0. apply D.
  - lra.
Qed.
Lemma opposite_signs u v : u <> 0 -> v <> 0 -> negb (Bool.eqb (Rltb 0 u) (Rltb 0 v)) = Rltb (u * v) 0.
Proof.
  intros Hu Hv. destruct (Rltb 0 u) eqn:Eu; [apply Rltb_true in Eu|apply Rltb_false in Eu]; destruct (Rltb 0 v) eqn:Ev; [apply Rltb_true in Ev|apply Rltb_false in Ev|apply Rltb_true in Ev|apply Rltb_false in Ev]; cbn; symmetry.
  - apply Rltb_false. apply Rmult_le_pos; lra.
  - apply Rltb_true. assert (0 < u * - v) by (apply Rmult_lt_0_compat; lra). lra.
  - apply Rltb_true. assert (0 < - u * v) by (apply Rmult_lt_0_compat; lra). lra.
  - apply Rltb_false. replace (u * v) with (- u * - v) by ring. apply Rmult_le_pos; lra.
Qed.

Section Count.
  Variables (p : list R) (rest : list (list R)).
  Hypothesis Np : nonzero p.
  Hypothesis Eu : euclid (p :: poly_derivative p :: rest).
  Let chain := p :: poly_derivative p :: rest.
  Let g := last chain [].

  Lemma chain_counts : forall L, NoDup L -> (forall x, In x L <-> peval p x = 0) ->
    forall a b, peval g a <> 0 -> peval g b <> 0 ->
    (sign_changes chain a + upto L a = sign_changes chain b + upto L b)%nat.
  Proof.
    intros L Nd HL. destruct (euclid_factor _ Eu) as (s & S & Len & F). destruct s as [|s0 [|s1 s]]; try discriminate.
    fold chain in F. fold g in F.
    assert (F0 : forall x, peval p x = peval g x * peval s0 x) by (intros x; specialize (F x); cbn [map chain] in F; unfold chain in F; cbn [map] in F; injection F; auto).
    assert (F1 : forall x, peval (poly_derivative p) x = peval g x * peval s1 x) by (intros x; specialize (F x); unfold chain in F; cbn [map] in F; injection F; auto).
    set (V := fun x => vr None (map (fun p => peval p x) (s0 :: s1 :: s))).
    assert (SV : forall x, peval g x <> 0 -> sign_changes chain x = V x).
    { intros x Hx. rewrite sign_changes_vr, F. unfold V. exact (vr_scale (peval g x) Hx _ None). }
    (* the zeros of s0 are those of p *)
    assert (Z0 : forall z, peval s0 z = 0 <-> peval p z = 0).
    { intros z. split; [intros Z; rewrite F0, Z; ring|]. intros Z. destruct (around_zero p z Np Z) as (m & h & k & Nh & Hk & E & D).
      set (dif := padd (pmul s0 k) (map Ropp (pmul s1 (pmul [- z; 1] h)))).
      assert (Ed : forall x, peval dif x = peval s0 x * peval k x - peval s1 x * ((x - z) * peval h x)).
      { intros x. unfold dif. rewrite peval_padd, peval_opp, !peval_pmul. cbn [peval]. ring. }
      assert (Zd : forall x, x <> z -> peval dif x = 0).
      { intros x Hx. rewrite Ed. assert (C : peval s0 x * peval (poly_derivative p) x = peval s1 x * peval p x) by (rewrite F0, F1; ring).
        rewrite E, D in C. apply (Rmult_eq_reg_l ((x - z) ^ m)); [|apply pow_nonzero; lra]. cbn [pow] in C. rewrite Rmult_0_r. lra. }
      destruct (Req_dec (peval dif z) 0) as [Q|Q].
      - rewrite Ed in Q. replace (z - z) with 0 in Q by ring. assert (P : peval s0 z * peval k z = 0) by lra. apply Rmult_integral in P. destruct P as [P|P]; [exact P|]. rewrite P in Hk. lra.
      - destruct (near_sign dif z Q) as (e & He & Ne). exfalso. apply (proj1 (Ne (z + e / 2) ltac:(rewrite Rabs_pos_eq; lra))). apply Zd. lra. }
    assert (Loc : forall z, near z (fun x => (V x + upto L x)%nat = (V z + upto L z)%nat)).
    { intros z. destruct (Req_dec (peval s0 z) 0) as [Z|Nz].
      - assert (Zp : peval p z = 0) by (apply Z0; exact Z). assert (Iz : In z L) by (apply HL; exact Zp).
        assert (N1 : peval s1 z <> 0) by (apply (sturm_not_both s0 s1 s z S Z)).
        assert (Tail : s = [] \/ sturm (s1 :: s)) by (inversion S; subst; [left; reflexivity|right; assumption]).
        pose proof (sturm_steady z (length s) s1 s (le_n _) Tail N1) as G.
        eapply near_impl; [|apply (near_and _ _ _ (derivative_sign p z Np Zp) (near_and _ _ _ G (near_and _ _ _ (near_sign s1 z N1) (upto_near L z Nd))))].
        intros x ([Dl Dr] & Gx & [Nx1 Sx1] & U & Ul & _). unfold V.
        assert (Vz : vr None (map (fun p => peval p z) (s0 :: s1 :: s)) = vr None (map (fun p => peval p z) (s1 :: s))).
        { cbn [map vr]. rewrite (proj2 (Reqb_true (peval s0 z) 0) Z). reflexivity. }
        rewrite Vz. rewrite <- (Gx None). cbn [map vr]. rewrite (proj2 (Reqb_false (peval s1 x) 0) Nx1).
        destruct (Rlt_dec x z) as [Hx|Hx]; [|destruct (Req_dec x z) as [->|Hne]].
        + specialize (Dl Hx). assert (P : peval s0 x * peval s1 x < 0).
          { rewrite F0, F1 in Dl. destruct (Rlt_dec (peval s0 x * peval s1 x) 0); auto. exfalso.
            assert (0 <= (peval g x * peval g x) * (peval s0 x * peval s1 x)) by (apply Rmult_le_pos; [apply Rle_0_sqr|lra]). lra. }
          assert (Nx0 : peval s0 x <> 0) by (intros Q; rewrite Q in P; lra).
          rewrite (proj2 (Reqb_false (peval s0 x) 0) Nx0). rewrite opposite_signs by auto. rewrite (proj2 (Rltb_true _ _) P).
          rewrite <- (Ul Hx Iz). lia.
        + rewrite (proj2 (Reqb_true (peval s0 z) 0) Z). reflexivity.
        + specialize (Dr ltac:(lra)). assert (P : 0 < peval s0 x * peval s1 x).
          { rewrite F0, F1 in Dr. destruct (Rlt_dec 0 (peval s0 x * peval s1 x)); auto. exfalso.
            assert (0 <= (peval g x * peval g x) * - (peval s0 x * peval s1 x)) by (apply Rmult_le_pos; [apply Rle_0_sqr|lra]). lra. }
          assert (Nx0 : peval s0 x <> 0) by (intros Q; rewrite Q in P; lra).
          rewrite (proj2 (Reqb_false (peval s0 x) 0) Nx0). rewrite opposite_signs by auto. rewrite (proj2 (Rltb_false _ _) (Rlt_le _ _ P)).
          rewrite (U ltac:(lra)). lia.
      - assert (Iz : ~ In z L) by (rewrite HL, <- Z0; exact Nz).
        pose proof (sturm_steady z (length (s1 :: s)) s0 (s1 :: s) (le_n _) (or_intror S) Nz) as G.
        eapply near_impl; [|apply (near_and _ _ _ G (upto_near L z Nd))]. intros x (Gx & U & _ & Ur). unfold V. rewrite (Gx None).
        destruct (Rlt_dec x z); [rewrite Ur by auto|rewrite U by lra]; reflexivity. }
    intros a b Ha Hb. rewrite !SV by auto. apply (locally_constant (fun x => (V x + upto L x)%nat) Loc a b).
  Qed.
End Count.

(** ** The chain built by the code *)
Lemma is_zero_R p : @poly_is_zero R Rnum p = true <-> forall k, cf p k = 0.
Proof.
  unfold poly_is_zero. rewrite forallb_forall. split.
  - intros H k. destruct (le_lt_dec (length p) k); [apply nth_overflow; auto|]. apply Reqb_true. apply (H (cf p k)). apply nth_In. auto.
  - intros H x Hx. apply (In_nth _ _ 0) in Hx. destruct Hx as (k & _ & <-). apply Reqb_true. apply H.
Qed.
Lemma chain_loop_euclid : forall room prev cur d, deg_eq cur d -> (d <= room)%nat -> euclid (prev :: cur :: chain_loop room prev cur).
Proof.
  induction room as [|room IH]; intros prev cur d D Hd.
  - assert (d = 0)%nat by lia. subst d. destruct D as [N0 D]. cbn [chain_loop]. apply (eu_two _ _ (map (fun a => a * / cf cur 0) prev)).
    intros x. rewrite peval_map_scale.
    assert (Ec : peval cur x = cf cur 0). { rewrite (peval_ext cur [cf cur 0]); [cbn; ring|]. intros [|k]; [reflexivity|]. rewrite (D (S k)) by lia. destruct k; reflexivity. }
    rewrite Ec. field. exact N0.
  - cbn [chain_loop]. destruct (remainder_spec prev cur d D) as (r & q & -> & L & Dr & V).
    destruct (poly_is_zero r) eqn:Z.
    + rewrite is_zero_R in Z. apply (eu_two _ _ q). intros x. rewrite V. rewrite (peval_ext r []) by (intros k; rewrite Z; destruct k; reflexivity). cbn. ring.
    + destruct (deg_find r) as [Z'|(n & Dn)]; [apply is_zero_R in Z'; congruence|].
      assert (Dneg : deg_eq (poly_neg r) n).
      { destruct Dn as [N0 D0]. split; [change (poly_neg r) with (map Ropp r); rewrite cf_opp; lra|]. intros k Hk. change (poly_neg r) with (map Ropp r). rewrite cf_opp, (D0 k) by lia. ring. }
      apply (eu_cons _ _ _ _ q); [|intros x; rewrite neg_R, V; ring].
      apply (IH cur (poly_neg r) n Dneg). pose proof (deg_eq_lt _ _ _ Dn Dr). lia.
Qed.
Lemma finite_R (p : list R) : poly_is_finite p = true.
Proof. unfold poly_is_finite. induction p; auto. Qed.
Lemma chain_last_zero chain x : euclid chain -> peval (last chain []) x = 0 -> forall p, In p chain -> peval p x = 0.
Proof.
  intros Eu. destruct (euclid_factor _ Eu) as (s & _ & _ & F). intros Z p Hp. specialize (F x). rewrite Z in F.
  assert (I : In (peval p x) (map (fun p => peval p x) chain)) by (apply (in_map (fun p => peval p x)); exact Hp).
  rewrite F in I. apply in_map_iff in I. destruct I as (v & <- & _). ring.
Qed.
Lemma deg_nonzero p n : deg_eq p n -> nonzero p.
Proof.
  intros [N0 D]. destruct (classic (exists x, peval p x <> 0)) as [|No]; [assumption|]. exfalso. apply N0. apply peval_zero_coeffs.
  intros x. destruct (Req_dec (peval p x) 0); [assumption|]. exfalso. apply No. eauto.
Qed.
Lemma chain_R p n : deg_eq p (S n) -> exists rest, root_counting_chain p = Ok (p :: poly_derivative p :: rest) /\ euclid (p :: poly_derivative p :: rest).
Proof.
  intros D. unfold root_counting_chain. rewrite finite_R. cbn [negb]. pose proof (degree_spec p) as S. destruct (poly_degree p) as [m|]; [|exfalso; apply (proj1 D); apply S].
  assert (m = Datatypes.S n) by (apply (deg_eq_unique p); auto). subst m. eexists. split; [reflexivity|].
  assert (Dd : deg_eq (poly_derivative p) n).
  { destruct D as [N0 D]. split.
    - rewrite cf_derivative. replace (n + 1)%nat with (Datatypes.S n) by lia. apply Rmult_integral_contrapositive_currified; [apply not_0_INR; lia|exact N0].
    - intros k Hk. rewrite cf_derivative, D by lia. ring. }
  apply (chain_loop_euclid _ _ _ n Dd). pose proof (deg_eq_lt p _ _ D (deg_lt_length p)). lia.
Qed.
(** a point that is no repeated zero *)
Definition regular (p : list R) (x : R) : Prop := ~ (peval p x = 0 /\ peval (poly_derivative p) x = 0).
Lemma chain_count p n : deg_eq p (S n) -> exists chain, root_counting_chain p = Ok chain /\
  forall L, NoDup L -> (forall x, In x L <-> peval p x = 0) -> forall a b, regular p a -> regular p b ->
    count_between chain a b = (upto L b - upto L a)%nat.
Proof.
  intros D. destruct (chain_R p n D) as (rest & E & Eu). eexists. split; [exact E|]. intros L Nd HL a b Ha Hb.
  assert (G : forall x, regular p x -> peval (last (p :: poly_derivative p :: rest) []) x <> 0).
  { intros x Hx Z. apply Hx. split; apply (chain_last_zero _ x Eu Z); cbn; auto. }
  pose proof (chain_counts p rest (deg_nonzero _ _ D) Eu L Nd HL a b (G a Ha) (G b Hb)) as C. unfold count_between. lia.
Qed.

(** ** Sorted lists of distinct zeros *)
Lemma sorted_strict (l : list R) : Sorted Rle l -> NoDup l -> Sorted Rlt l.
Proof.
  induction 1 as [|a l S IH H]; intros Nd; [constructor|]. inversion Nd; subst. constructor; [auto|]. destruct H as [|b l H]; constructor.
  destruct (Req_dec a b) as [->|]; [exfalso; apply H2; left; reflexivity|lra].
Qed.
Lemma strict_unique (l : list R) : StronglySorted Rlt l -> forall m, StronglySorted Rlt m -> (forall x, In x l <-> In x m) -> l = m.
Proof.
  induction 1 as [|a l S IH F]; intros m Sm E.
  - destruct m as [|b m]; [reflexivity|]. exfalso. apply (E b). left; reflexivity.
  - destruct Sm as [|b m Sm Fm]; [exfalso; apply (E a); left; reflexivity|]. rewrite Forall_forall in F, Fm.
    assert (a = b).
    { destruct (proj1 (E a) (or_introl eq_refl)) as [->|Ia]; [reflexivity|]. destruct (proj2 (E b) (or_introl eq_refl)) as [->|Ib]; [reflexivity|].
      pose proof (F b Ib). pose proof (Fm a Ia). lra. }
    subst b. f_equal. apply IH; [exact Sm|]. intros x. split; intros Hx.
    + destruct (proj1 (E x) (or_intror Hx)) as [->|]; [|assumption]. exfalso. pose proof (F x Hx). lra.
    + destruct (proj2 (E x) (or_intror Hx)) as [->|]; [|assumption]. exfalso. pose proof (Fm x Hx). lra.
Qed.
Definition in_range (a b r : R) : bool := Rltb a r && Rleb r b.
Lemma upto_range L a b : a <= b -> (upto L b = upto L a + length (filter (in_range a b) L))%nat.
Proof.
  intros H. induction L as [|r L IH]; [reflexivity|]. rewrite !upto_cons. cbn [filter]. unfold in_range at 1.
  destruct (Rleb r b) eqn:E1; [apply Rleb_true in E1|apply Rleb_false in E1]; destruct (Rleb r a) eqn:E2; [apply Rleb_true in E2|apply Rleb_false in E2|apply Rleb_true in E2|apply Rleb_false in E2]; try lra.
  - rewrite (proj2 (Rltb_false a r) E2). cbn. lia.
  - rewrite (proj2 (Rltb_true a r) E2). cbn. lia.
  - rewrite andb_false_r. lia.
Qed.
Lemma upto_mono L a b : a <= b -> (upto L a <= upto L b)%nat.
Proof. intros H. rewrite (upto_range L a b H). lia. Qed.
Lemma distinct_sort c L a b : NoDup L -> (forall x, In x L <-> peval c x = 0) -> distinct_roots_in c a b (sort_ascending (filter (in_range a b) L)).
Proof.
  intros Nd HL. split.
  - apply sorted_strict; [apply sort_sorted|]. apply (Permutation_NoDup (l := filter (in_range a b) L)); [symmetry; apply sort_perm|apply NoDup_filter; exact Nd].
  - intros x. rewrite value_at_peval, <- HL.
    assert (P : In x (sort_ascending (filter (in_range a b) L)) <-> In x (filter (in_range a b) L)) by (split; apply Permutation_in; [|symmetry]; apply sort_perm).
    rewrite P, filter_In. unfold in_range. rewrite andb_true_iff, Rltb_true, Rleb_true. tauto.
Qed.
Lemma distinct_unique c a b l m : distinct_roots_in c a b l -> distinct_roots_in c a b m -> l = m.
Proof.
  intros [S1 E1] [S2 E2]. apply Sorted_StronglySorted in S1, S2; [|intros u v w; lra|intros u v w; lra].
  apply strict_unique; auto. intros x. rewrite E1, E2. tauto.
Qed.

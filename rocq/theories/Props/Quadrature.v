(** C117 the Gaussian quadratures: every table of every order, and the integrals they give. *)
From Coq Require Import Reals ZArith List Arith Bool Lia Lra Psatz.
From Coquelicot Require Import Coquelicot.
From Verif Require Import Base.Scalar Base.RNum Base.XNum Base.Lists Base.Series Model.Errors Model.GaussTables Model.Integration Spec.Integration Proofs.Integration Proofs.Gaussian Proofs.Quadrature.
Import ListNotations.
Local Open Scope R_scope.
Local Notation exp := Rtrigo_def.exp.
Local Notation sqrt := R_sqrt.sqrt.
Local Notation length := List.length.

(** ** Sums over a table *)
Lemma weighted_R l place f : forall acc, weighted l place (fun x => Ok (f x)) acc = Ok (acc + gsum l (fun x => f (place x))).
Proof. induction l as [|[w x] l IH]; intros acc; cbn [weighted gsum]; [rnum; f_equal; ring|]. rewrite IH. rnum. f_equal. ring. Qed.
Lemma weighted_X l (g : XR -> sampled XR) (f : R -> R) : (forall e, In e l -> g (Fin (literal (snd e))) = Ok (Fin (f (literal (snd e))))) -> forall acc, weighted l (fun x => x) g (Fin acc) = Ok (Fin (acc + gsum l f)).
Proof.
  induction l as [|[w x] l IH]; intros H acc; cbn [weighted gsum]; [rewrite Rplus_0_r; reflexivity|]. pose proof (H (w, x) (or_introl eq_refl)) as Hx. cbn [snd] in Hx. change (literal (T := XR) x) with (Fin (literal x)). rewrite Hx.
  change (add (Fin acc) (mul (literal (T := XR) w) (Fin (f (literal x))))) with (Fin (acc + literal w * f (literal x))). rewrite IH by (intros; apply H; right; auto). do 2 f_equal. ring.
Qed.
Lemma gsum_poly l m (c : nat -> R) : gsum l (polynomial m c) = bsum m (fun k => c k * gsum l (fun x => x ^ k)).
Proof.
  induction l as [|[w x] l IH]; cbn [gsum]; [rewrite (bsum_ext _ _ (fun _ => 0)), bsum_0 by (intros; ring); reflexivity|]. rewrite IH. unfold polynomial. rewrite <- bsum_scal, <- bsum_plus. apply bsum_ext. intros; ring.
Qed.
Lemma gsum_close l f g e : (forall i, In i l -> 0 < literal (fst i) /\ Rabs (f (literal (snd i)) - g (literal (snd i))) <= e) -> Rabs (gsum l f - gsum l g) <= e * gsum l (fun x => x ^ 0).
Proof.
  induction l as [|[w x] l IH]; intros H; cbn [gsum]; [rewrite Rminus_0_r, Rabs_R0; lra|]. destruct (H (w, x) (or_introl eq_refl)) as [W D]. cbn [fst snd] in *. specialize (IH (fun i Hi => H i (or_intror Hi))).
  replace (literal w * f (literal x) + gsum l f - (literal w * g (literal x) + gsum l g)) with (literal w * (f (literal x) - g (literal x)) + (gsum l f - gsum l g)) by ring. eapply Rle_trans; [apply Rabs_triang|].
  rewrite Rabs_mult, (Rabs_pos_eq (literal w)) by lra. cbn [pow] in *. assert (literal w * Rabs (f (literal x) - g (literal x)) <= literal w * e) by (apply Rmult_le_compat_l; lra). lra.
Qed.
Lemma poly_close l m (c v t : nat -> R) : (forall k, (k < m)%nat -> Rabs (gsum l (fun x => x ^ k) - v k) <= t k) -> Rabs (gsum l (polynomial m c) - bsum m (fun k => c k * v k)) <= bsum m (fun k => Rabs (c k) * t k).
Proof.
  intros H. rewrite gsum_poly, <- bsum_minus. apply bsum_abs_le. intros k Hk. rewrite <- Rmult_minus_distr_l, Rabs_mult. apply Rmult_le_compat_l; [apply Rabs_pos|auto].
Qed.
Lemma nodes_ok method n : (1 <= n <= 30)%nat -> nodes method n = Ok (nth n (match method with GaussLegendre => legendre | GaussHermite => hermite | GaussLaguerre => laguerre end) []).
Proof.
  intros Hn. unfold nodes. destruct (Nat.eqb_spec n 0); [lia|]. destruct (Nat.ltb_spec 30 n); [lia|]. cbn [orb].
  assert (L : forall A (t : list (list A)), (n < length t)%nat -> nth_error t n = Some (nth n t [])) by (intros A t; apply nth_error_nth').
  rewrite L; [reflexivity|]. destruct method; cbn; lia.
Qed.

(** ** Legendre *)
(** On [[a, b]] the quadrature of order [n] misses the integral by at most as much as the best polynomial of degree below [2n] misses the
    integrand, up to the digits of the tables; polynomials are the case [eps = 0]. *)
Lemma legendre_integral m c a b : a < b -> let h := (b - a) / 2 in let mid := (a + b) / 2 in
  is_RInt (fun x => polynomial m c ((x - mid) / h)) a b (h * bsum m (fun k => c k * legendre_value k)).
Proof.
  intros H h mid. assert (Hh : 0 < h) by (unfold h; lra). pose proof (poly_integral m (fun k => c k / h ^ k) mid a b) as P.
  apply (is_RInt_ext (fun x => bsum m (fun k => c k / h ^ k * (x - mid) ^ k))).
  - intros x _. unfold polynomial. apply bsum_ext. intros k _. unfold Rdiv at 2. rewrite Rpow_mult_distr, <- Rinv_pow by lra. unfold Rdiv. ring.
  - replace (h * bsum m (fun k => c k * legendre_value k)) with (bsum m (fun k => c k / h ^ k * (b - mid) ^ S k / INR (S k)) - bsum m (fun k => c k / h ^ k * (a - mid) ^ S k / INR (S k))); [exact P|].
    rewrite <- bsum_minus, <- bsum_scal. apply bsum_ext. intros k _. replace (b - mid) with h by (unfold mid, h; lra). replace (a - mid) with (- 1 * h) by (unfold mid, h; lra). rewrite Rpow_mult_distr.
    assert (0 < h ^ k) by (apply pow_lt, Hh). assert (0 < INR (S k)) by (apply lt_0_INR; lia). unfold legendre_value. destruct (parity k) as (j & [E | E]).
    + assert (Ev : Nat.even k = true) by (rewrite E; apply even_double). rewrite Ev. assert (O : (- 1) ^ S k = - 1) by (rewrite E; apply pow_1_odd). rewrite O. cbn [pow]. field. split; apply Rgt_not_eq; auto.
    + assert (Ev : Nat.even k = false) by (rewrite E; apply even_succ_double). rewrite Ev. assert (O : (- 1) ^ S k = 1) by (rewrite E; replace (S (S (2 * j))) with (2 * S j)%nat by lia; apply pow_1_even). rewrite O. cbn [pow]. field. split; apply Rgt_not_eq; auto.
Qed.
Theorem C117_legendre n f a b c eps : (1 <= n <= 30)%nat -> a < b -> ex_RInt f a b -> let h := (b - a) / 2 in let mid := (a + b) / 2 in
  (forall x, a <= x <= b -> Rabs (f x - polynomial (2 * n) c ((x - mid) / h)) <= eps) ->
  exists v, gaussian_single {| order := n; quadrature := GaussLegendre |} f [(a, b)] = Ok v /\
    Rabs (v - RInt f a b) <= h * (/ 10 ^ 14 * bsum (2 * n) (fun k => Rabs (c k)) + 5 * eps).
Proof.
  intros Hn Hab Ex h mid Hf. assert (Hh : 0 < h) by (unfold h; lra). destruct (legendre_ok n Hn) as (_ & N & M). set (l := nth n legendre []) in *.
  exists (h * gsum l (fun t => f (h * t + mid))). split.
  - unfold gaussian_single. cbn [quadrature order]. rewrite nodes_ok by auto. fold l. cbn [forallb limits_ok fst snd andb]. rnum. cbn [andb]. rewrite (proj2 (Rltb_true a b)) by auto. cbn [andb rev app gauss_single_levels gauss_level].
    change (fun x : R => check_finite (f x)) with (fun x : R => Ok (A := R) (E := IntegrateError) (f x)). rewrite weighted_R. rnum. f_equal. rewrite Rplus_0_l. replace ((b - a) * / 2) with h by (unfold h; field). f_equal. apply gsum_ext. intros x. f_equal. unfold mid. field.
  - set (P := fun t => polynomial (2 * n) c t). pose proof (legendre_integral (2 * n) c a b Hab) as I. fold h mid in I.
    assert (B1 : Rabs (gsum l (fun t => f (h * t + mid)) - gsum l P) <= eps * gsum l (fun x => x ^ 0)).
    { apply gsum_close. intros e He. destruct (N e He) as [W X]. split; [exact W|]. set (t := literal (snd e)) in *. apply Rabs_le_between in X. replace (P t) with (polynomial (2 * n) c ((h * t + mid - mid) / h)) by (unfold P; f_equal; field; lra). apply Hf. unfold h, mid. nra. }
    assert (B2 : Rabs (gsum l P - bsum (2 * n) (fun k => c k * legendre_value k)) <= bsum (2 * n) (fun k => Rabs (c k) * / 10 ^ 14)) by (apply poly_close; exact M).
    rewrite (bsum_ext _ (fun k => Rabs (c k) * / 10 ^ 14) (fun k => / 10 ^ 14 * Rabs (c k))) in B2 by (intros; ring). rewrite bsum_scal in B2.
    assert (B0 : Rabs (gsum l (fun x => x ^ 0) - 2) <= / 10 ^ 14) by (pose proof (M 0%nat ltac:(lia)) as M0; unfold legendre_value in M0; cbn [Nat.even INR] in M0; replace (2 / 1) with 2 in M0 by field; exact M0).
    assert (E0 : 0 <= eps) by (eapply Rle_trans; [apply Rabs_pos|apply (Hf a); lra]).
    assert (B3 : Rabs (RInt f a b - h * bsum (2 * n) (fun k => c k * legendre_value k)) <= (b - a) * eps).
    { rewrite <- (is_RInt_unique _ _ _ _ I). change (RInt f a b - RInt (fun x => polynomial (2 * n) c ((x - mid) / h)) a b) with (minus (RInt f a b) (RInt (fun x => polynomial (2 * n) c ((x - mid) / h)) a b)).
      assert (Ip : ex_RInt (fun x => polynomial (2 * n) c ((x - mid) / h)) a b) by (eexists; exact I). rewrite <- (RInt_minus (V := R_CompleteNormedModule)) by assumption. apply abs_RInt_le_const; [lra|apply (ex_RInt_minus (V := R_NormedModule)); assumption|]. intros x Hx. apply Hf. exact Hx. }
    set (S := bsum (2 * n) (fun k => c k * legendre_value k)) in *. set (F := gsum l (fun t => f (h * t + mid))) in *. set (s := bsum (2 * n) (fun k => Rabs (c k))) in *.
    assert (B4 : eps * gsum l (fun x => x ^ 0) <= eps * 3). { apply Rmult_le_compat_l; [exact E0|]. apply Rabs_le_between in B0. lra. }
    assert (B5 : Rabs (F - S) <= / 10 ^ 14 * s + 3 * eps). { replace (F - S) with ((F - gsum l P) + (gsum l P - S)) by ring. eapply Rle_trans; [apply Rabs_triang|]. lra. }
    replace (h * F - RInt f a b) with (h * (F - S) - (RInt f a b - h * S)) by ring. eapply Rle_trans; [apply Rabs_triang|]. rewrite Rabs_Ropp, Rabs_mult, (Rabs_pos_eq h) by lra.
    assert (B6 : h * Rabs (F - S) <= h * (/ 10 ^ 14 * s + 3 * eps)) by (apply Rmult_le_compat_l; lra). replace ((b - a) * eps) with (h * (2 * eps)) in B3 by (unfold h; field). lra.
Qed.

(** ** Laguerre and Hermite *)
Lemma up_ext f g a I : (forall x, f x = g x) -> integral_upwards f a I -> integral_upwards g a I.
Proof. intros E [X L]. split; [intros b Hb; apply (ex_RInt_ext f); [intros; apply E|auto]|]. apply (is_lim_ext (fun b => RInt f a b)); [intros b; apply RInt_ext; intros; apply E|exact L]. Qed.
Lemma up_lin f g I J u v : integral_upwards f 0 I -> integral_upwards g 0 J -> integral_upwards (fun x => u * f x + v * g x) 0 (u * I + v * J).
Proof.
  intros [Xf Lf] [Xg Lg]. assert (X : forall b, 0 <= b -> is_RInt (fun x => u * f x + v * g x) 0 b (u * RInt f 0 b + v * RInt g 0 b)).
  { intros b Hb. apply (is_RInt_plus (V := R_NormedModule) (fun x => u * f x) (fun x => v * g x)); apply (is_RInt_scal (V := R_NormedModule)), (RInt_correct (V := R_CompleteNormedModule)); auto. }
  split; [intros b Hb; eexists; apply X; auto|]. apply (is_lim_ext_loc (fun b => u * RInt f 0 b + v * RInt g 0 b)).
  - exists 0. intros b Hb. symmetry. apply is_RInt_unique, X. lra.
  - apply (is_lim_plus' (fun b => u * RInt f 0 b)); [apply (is_lim_scal_l (fun b => RInt f 0 b) u p_infty I Lf)|apply (is_lim_scal_l (fun b => RInt g 0 b) v p_infty J Lg)].
Qed.
Lemma up_zero : integral_upwards (fun _ => 0) 0 0.
Proof. split; [intros; apply ex_RInt_const|]. apply (is_lim_ext (fun _ => 0)); [intros b; rewrite RInt_const; unfold scal; cbn; unfold mult; cbn; ring|apply is_lim_const]. Qed.
Lemma up_sum m (c : nat -> R) (g : nat -> R -> R) (I : nat -> R) : (forall k, integral_upwards (g k) 0 (I k)) -> integral_upwards (fun x => bsum m (fun k => c k * g k x)) 0 (bsum m (fun k => c k * I k)).
Proof.
  intros H. induction m as [|m IH]; cbn [bsum]; [apply up_zero|]. pose proof (up_lin _ _ _ _ 1 (c m) IH (H m)) as L. rewrite Rmult_1_l in L. apply (up_ext _ _ _ _ (fun x => f_equal (fun y => y + c m * g m x) (Rmult_1_l _)) L).
Qed.
Lemma up_close F G E I J K : integral_upwards F 0 I -> integral_upwards G 0 J -> integral_upwards E 0 K -> (forall x, 0 <= x -> Rabs (F x - G x) <= E x) -> Rabs (I - J) <= K.
Proof.
  intros HF HG HE B. pose proof (up_lin _ _ _ _ 1 (- 1) HF HG) as [XD LD]. destruct HE as [XE LE].
  pose proof (up_lin _ _ _ _ 1 (- 1) HG HF) as [XD' LD'].
  assert (L1 : Rbar_le (1 * I + - 1 * J) K). { refine (is_lim_le_loc _ _ _ _ _ _ LD LE). exists 0. intros b Hb. apply RInt_le; [lra|apply XD; lra|apply XE; lra|]. intros x Hx. specialize (B x ltac:(lra)). apply Rabs_le_between in B. lra. }
  assert (L2 : Rbar_le (1 * J + - 1 * I) K). { refine (is_lim_le_loc _ _ _ _ _ _ LD' LE). exists 0. intros b Hb. apply RInt_le; [lra|apply XD'; lra|apply XE; lra|]. intros x Hx. specialize (B x ltac:(lra)). apply Rabs_le_between in B. lra. }
  cbn in L1, L2.
  apply Rabs_le. lra.
Qed.
(** The answer approximates the integral of [f] against [exp (-x)] over the half line. *)
Theorem C117_laguerre n fx f c eps I : (1 <= n <= 30)%nat -> (forall x, 0 <= x -> fx (Fin x) = Fin (f x)) ->
  (forall x, 0 <= x -> Rabs (f x - polynomial (2 * n) c x) <= eps) -> integral_upwards (fun x => f x * exp (- x)) 0 I ->
  exists v, gaussian_single {| order := n; quadrature := GaussLaguerre |} fx [(Fin 0, PInf)] = Ok (Fin v) /\
    Rabs (v - I) <= / 10 ^ 13 * bsum (2 * n) (fun k => Rabs (c k) * INR (fact k)) + 3 * eps.
Proof.
  intros Hn Hx Hf HI. destruct (laguerre_ok n Hn) as (_ & N & M). set (l := nth n laguerre []) in *. exists (gsum l f). split.
  - unfold gaussian_single. cbn [quadrature order]. rewrite nodes_ok by auto. fold l. replace (forallb (limits_ok GaussLaguerre) [(Fin 0, PInf)]) with true.
    + cbn [rev app gauss_single_levels gauss_level]. change (@zero XR Xnum) with (Fin 0). rewrite (weighted_X l _ f); [rewrite Rplus_0_l; reflexivity|]. intros e He. destruct (N e He) as [_ X]. rewrite Hx by auto. reflexivity.
    + symmetry. cbn. unfold Reqb. destruct (Req_EM_T 0 0); [reflexivity|lra].
  - assert (E0 : 0 <= eps) by (eapply Rle_trans; [apply Rabs_pos|apply (Hf 0); lra]). set (m := (2 * n)%nat) in *.
    assert (B1 : Rabs (gsum l f - gsum l (polynomial m c)) <= eps * gsum l (fun x => x ^ 0)) by (apply gsum_close; intros e He; destruct (N e He) as [W X]; split; [exact W|apply Hf, X]).
    assert (B2 : Rabs (gsum l (polynomial m c) - bsum m (fun k => c k * INR (fact k))) <= bsum m (fun k => Rabs (c k) * (/ 10 ^ 13 * INR (fact k)))) by (apply poly_close; exact M).
    rewrite (bsum_ext _ (fun k => Rabs (c k) * (/ 10 ^ 13 * INR (fact k))) (fun k => / 10 ^ 13 * (Rabs (c k) * INR (fact k)))) in B2 by (intros; ring). rewrite bsum_scal in B2.
    assert (B0 : gsum l (fun x => x ^ 0) <= 3 / 2). { pose proof (M 0%nat ltac:(unfold m; lia)) as M0. cbn [fact INR] in M0. apply Rabs_le_between in M0. lra. }
    assert (B3 : Rabs (I - bsum m (fun k => c k * INR (fact k))) <= eps * 1 + 0 * 0).
    { apply (up_close (fun x => f x * exp (- x)) (fun x => bsum m (fun k => c k * (x ^ k * exp (- x)))) (fun x => eps * (x ^ 0 * exp (- x)) + 0 * 0)); [exact HI| | |].
      - apply up_sum. intros k. apply laguerre_moment.
      - apply (up_lin (fun x => x ^ 0 * exp (- x)) (fun _ => 0) 1 0 eps 0); [apply (laguerre_moment 0)|apply up_zero].
      - intros x X. replace (bsum m (fun k => c k * (x ^ k * exp (- x)))) with (polynomial m c x * exp (- x)) by (unfold polynomial; rewrite Rmult_comm, <- bsum_scal; apply bsum_ext; intros; ring). rewrite <- Rmult_minus_distr_r, Rabs_mult. pose proof (exp_pos (- x)). rewrite (Rabs_pos_eq (exp (- x))) by lra. cbn [pow]. assert (Rabs (f x - polynomial m c x) * exp (- x) <= eps * exp (- x)) by (apply Rmult_le_compat_r; [lra|apply Hf, X]). lra. }
    assert (B4 : eps * gsum l (fun x => x ^ 0) <= eps * (3 / 2)) by (apply Rmult_le_compat_l; lra).
    set (S := bsum m (fun k => c k * INR (fact k))) in *. replace (gsum l f - I) with ((gsum l f - gsum l (polynomial m c)) + (gsum l (polynomial m c) - S) - (I - S)) by ring.
    eapply Rle_trans; [apply Rabs_triang|]. rewrite Rabs_Ropp. eapply Rle_trans; [apply Rplus_le_compat_r, Rabs_triang|]. lra.
Qed.
(** The answer approximates the integral of [f] against [exp (-x^2)] over the line; the moments of the weight are [hermite_moment]'s. *)
Theorem C117_hermite n fx f c eps I : (1 <= n <= 30)%nat -> (forall x, fx (Fin x) = Fin (f x)) ->
  (forall x, Rabs (f x - polynomial (2 * n) c x) <= eps) -> integral_whole_line (fun x => f x * exp (- x ^ 2)) I ->
  exists v, gaussian_single {| order := n; quadrature := GaussHermite |} fx [(NInf, PInf)] = Ok (Fin v) /\
    Rabs (v - I) <= / 10 ^ 14 * bsum (2 * n) (fun k => Rabs (c k) * hermite_value k) + 4 * eps.
Proof.
  intros Hn Hx Hf HI. destruct (hermite_ok n Hn) as (_ & N & M). set (l := nth n hermite []) in *. exists (gsum l f). split.
  - unfold gaussian_single. cbn [quadrature order]. rewrite nodes_ok by auto. fold l. change (forallb (limits_ok GaussHermite) [(NInf, PInf)]) with true.
    cbn [rev app gauss_single_levels gauss_level]. change (@zero XR Xnum) with (Fin 0). rewrite (weighted_X l _ f); [rewrite Rplus_0_l; reflexivity|]. intros e He. rewrite Hx. reflexivity.
  - assert (E0 : 0 <= eps) by (eapply Rle_trans; [apply Rabs_pos|apply (Hf 0)]). set (m := (2 * n)%nat) in *.
    assert (B1 : Rabs (gsum l f - gsum l (polynomial m c)) <= eps * gsum l (fun x => x ^ 0)) by (apply gsum_close; intros e He; split; [apply N, He|apply Hf]).
    assert (B2 : Rabs (gsum l (polynomial m c) - bsum m (fun k => c k * hermite_value k)) <= bsum m (fun k => Rabs (c k) * (/ 10 ^ 14 * hermite_value k))) by (apply poly_close; exact M).
    rewrite (bsum_ext _ (fun k => Rabs (c k) * (/ 10 ^ 14 * hermite_value k)) (fun k => / 10 ^ 14 * (Rabs (c k) * hermite_value k))) in B2 by (intros; ring). rewrite bsum_scal in B2.
    pose proof root_pi_bounds as RP. assert (V0 : hermite_value 0 = sqrt PI) by (unfold hermite_value, even; cbn; field).
    assert (B0 : gsum l (fun x => x ^ 0) <= 2). { pose proof (M 0%nat ltac:(unfold m; lia)) as M0. rewrite V0 in M0. apply Rabs_le_between in M0. lra. }
    assert (B3 : Rabs (I - bsum m (fun k => c k * hermite_value k)) <= eps * sqrt PI).
    { destruct HI as (right & left & Hr & Hl & ->).
      assert (P : forall x, bsum m (fun k => c k * (x ^ k * exp (- x ^ 2))) = polynomial m c x * exp (- x ^ 2)) by (intros x; unfold polynomial; rewrite (Rmult_comm (bsum _ _)), <- bsum_scal; apply bsum_ext; intros; ring).
      assert (Cl : forall x, Rabs (f x * exp (- x ^ 2) - polynomial m c x * exp (- x ^ 2)) <= eps * (x ^ 0 * exp (- x ^ 2)) + 0 * 0). { intros x. rewrite <- Rmult_minus_distr_r, Rabs_mult. pose proof (exp_pos (- x ^ 2)). rewrite (Rabs_pos_eq (exp (- x ^ 2))) by lra. change (x ^ 0) with 1. assert (Rabs (f x - polynomial m c x) * exp (- x ^ 2) <= eps * exp (- x ^ 2)) by (apply Rmult_le_compat_r; [lra|apply Hf]). lra. }
      assert (Hm : half_moment 0 = sqrt PI / 2) by (unfold half_moment, even; cbn; field).
      assert (K1 : Rabs (right - bsum m (fun k => c k * half_moment k)) <= eps * half_moment 0 + 0 * 0).
      { apply (up_close (fun x => f x * exp (- x ^ 2)) (fun x => bsum m (fun k => c k * (x ^ k * exp (- x ^ 2)))) (fun x => eps * (x ^ 0 * exp (- x ^ 2)) + 0 * 0)); [exact Hr| | |].
        - apply up_sum. intros k. split; [intros; apply ex_cont, continuous_pg|apply gauss_half].
        - apply (up_lin (fun x => x ^ 0 * exp (- x ^ 2)) (fun _ => 0) (half_moment 0) 0 eps 0); [split; [intros; apply ex_cont, continuous_pg|apply gauss_half]|apply up_zero].
        - intros x _. rewrite P. apply Cl. }
      assert (K2 : Rabs (left - bsum m (fun k => c k * ((- 1) ^ k * half_moment k))) <= eps * half_moment 0 + 0 * 0).
      { apply (up_close (fun x => f (- x) * exp (- (- x) ^ 2)) (fun x => bsum m (fun k => c k * ((- x) ^ k * exp (- (- x) ^ 2)))) (fun x => eps * (x ^ 0 * exp (- x ^ 2)) + 0 * 0)); [exact Hl| | |].
        - apply (up_sum m c (fun k x => (- x) ^ k * exp (- (- x) ^ 2))). intros k. split; [|apply gauss_left]. intros b _. apply ex_cont. intros x. apply (ex_derive_continuous (V := R_NormedModule)). auto_derive. exact Logic.I.
        - apply (up_lin (fun x => x ^ 0 * exp (- x ^ 2)) (fun _ => 0) (half_moment 0) 0 eps 0); [split; [intros; apply ex_cont, continuous_pg|apply gauss_half]|apply up_zero].
        - intros x _. rewrite (P (- x)). replace (x ^ 0 * exp (- x ^ 2)) with ((- x) ^ 0 * exp (- (- x) ^ 2)) by (cbn; do 2 f_equal; ring). apply Cl. }
      rewrite Hm in K1, K2. assert (Sp : bsum m (fun k => c k * hermite_value k) = bsum m (fun k => c k * half_moment k) + bsum m (fun k => c k * ((- 1) ^ k * half_moment k))).
      { rewrite <- bsum_plus. apply bsum_ext. intros k _. unfold hermite_value, half_moment. destruct (parity k) as (j & [-> | ->]); [rewrite even_double, pow_1_even|rewrite even_succ_double, pow_1_odd]; field. }
      rewrite Sp. match goal with |- Rabs (?r + ?l - (?a + ?b)) <= _ => replace (r + l - (a + b)) with ((r - a) + (l - b)) by ring end. eapply Rle_trans; [apply Rabs_triang|]. lra. }
    assert (B4 : eps * gsum l (fun x => x ^ 0) <= eps * 2) by (apply Rmult_le_compat_l; lra). assert (B5 : eps * sqrt PI <= eps * 2) by (apply Rmult_le_compat_l; lra).
    set (S := bsum m (fun k => c k * hermite_value k)) in *. replace (gsum l f - I) with ((gsum l f - gsum l (polynomial m c)) + (gsum l (polynomial m c) - S) - (I - S)) by ring.
    eapply Rle_trans; [apply Rabs_triang|]. rewrite Rabs_Ropp. eapply Rle_trans; [apply Rplus_le_compat_r, Rabs_triang|]. lra.
Qed.

(** A cube on [[0, 2]] by two nodes, [x^2] against both weights *)
Example C117_example :
  (exists v, gaussian_single {| order := 2; quadrature := GaussLegendre |} (fun x : R => x * x * x) [(0, 2)] = Ok v /\ Rabs (v - 4) <= 8 / 10 ^ 14) /\
  (exists v, gaussian_single {| order := 2; quadrature := GaussLaguerre |} (fun x : XR => mul x x) [(Fin 0, PInf)] = Ok (Fin v) /\ Rabs (v - 2) <= 2 / 10 ^ 13) /\
  (exists v, gaussian_single {| order := 2; quadrature := GaussHermite |} (fun x : XR => mul x x) [(NInf, PInf)] = Ok (Fin v) /\ Rabs (v - sqrt PI / 2) <= sqrt PI / 2 / 10 ^ 14).
Proof.
  assert (E2 : even 1 = / 2) by (unfold even; cbn; field). split; [|split].
  - assert (I : is_RInt (fun x : R => x * x * x) 0 2 4). { replace 4 with (minus (2 ^ 4 / 4) (0 ^ 4 / 4)) by (unfold minus, plus, opp; cbn; field). apply (is_RInt_derive (fun x : R => x ^ 4 / 4)); intros x _; [auto_derive; [exact Logic.I|cbn; field]|apply (ex_derive_continuous (V := R_NormedModule)); auto_derive; exact Logic.I]. }
    destruct (C117_legendre 2 (fun x : R => x * x * x) 0 2 (fun k => nth k [1; 3; 3; 1] 0) 0 ltac:(lia) ltac:(lra) ltac:(eexists; exact I)) as (v & Ev & B).
    + intros x Hx. unfold polynomial. cbn. rewrite Rminus_diag_eq, Rabs_R0; [lra|]. field.
    + exists v. split; [exact Ev|]. rewrite (is_RInt_unique _ _ _ _ I) in B. eapply Rle_trans; [exact B|]. cbn [bsum Nat.mul Nat.add nth]. rewrite !(Rabs_pos_eq 1), !(Rabs_pos_eq 3) by lra. lra.
  - destruct (C117_laguerre 2 (fun x : XR => mul x x) (fun x => x * x) (fun k => nth k [0; 0; 1] 0) 0 2 ltac:(lia)) as (v & Ev & B); [reflexivity| | |].
    + intros x _. unfold polynomial. cbn. rewrite Rminus_diag_eq, Rabs_R0; [lra|]. ring.
    + apply (up_ext (fun x => x ^ 2 * exp (- x))); [intros; cbn; ring|]. replace 2 with (INR (fact 2)) at 2 by (cbn; ring). apply laguerre_moment.
    + exists v. split; [exact Ev|]. eapply Rle_trans; [exact B|]. cbn [bsum Nat.mul Nat.add nth]. rewrite !(Rabs_pos_eq 1), Rabs_R0 by lra. cbn [fact INR Nat.mul Nat.add]. lra.
  - destruct (C117_hermite 2 (fun x : XR => mul x x) (fun x => x * x) (fun k => nth k [0; 0; 1] 0) 0 (sqrt PI / 2) ltac:(lia)) as (v & Ev & B); [reflexivity| | |].
    + intros x. unfold polynomial. cbn. rewrite Rminus_diag_eq, Rabs_R0; [lra|]. ring.
    + destruct (hermite_moment 2) as (r & l & Hr & Hl & E). exists r, l. split; [apply (up_ext (fun x => x ^ 2 * exp (- x ^ 2))); [intros; cbn; ring|exact Hr]|]. split; [apply (up_ext (fun x => (- x) ^ 2 * exp (- (- x) ^ 2))); [intros; cbn; ring|exact Hl]|]. rewrite <- E. unfold hermite_value. cbn [Nat.even Nat.div2]. rewrite E2. field.
    + exists v. split; [exact Ev|]. eapply Rle_trans; [exact B|]. cbn [bsum Nat.mul Nat.add nth]. rewrite !(Rabs_pos_eq 1), Rabs_R0 by lra. unfold hermite_value. cbn [Nat.even Nat.div2]. rewrite E2. lra.
Qed.

Print Assumptions C117_legendre.
Print Assumptions C117_laguerre.
Print Assumptions C117_hermite.

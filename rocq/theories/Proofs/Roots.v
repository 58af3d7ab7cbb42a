(** Root finding for polynomials: sorting, closed forms, the Cauchy bound, and the search's bookkeeping. *)
From Coq Require Import ZArith List Bool Arith Reals Lra Lia Permutation Sorted.
From Coquelicot Require Import Coquelicot.
From Verif Require Import Base.Scalar Base.Lists Base.RNum Base.Series Base.PolyR Model.Errors Model.Polynomial Model.Roots
  Spec.Polynomial Spec.Roots Proofs.DiffAlg Proofs.Polynomial.
Import ListNotations.
Local Open Scope R_scope.

(** ** Sorting *)
Section Sort.
  Context {T : Type} {NT : Num T}.
  Fixpoint ins (c : T) (rp : list T) : list T :=
    match rp with [] => [c] | a :: rp' => if leb a c then c :: rp else a :: ins c rp' end.
  Lemma nth_at (p : list T) c q d : nth (length p) (p ++ c :: q) d = c.
  Proof. rewrite app_nth2, Nat.sub_diag by lia. reflexivity. Qed.
  Lemma set_at (p : list T) c q v : set_nth (p ++ c :: q) (length p) v = p ++ v :: q.
  Proof. induction p; cbn; [reflexivity|]. f_equal. assumption. Qed.
  Lemma sort_back_ins rp : forall c post, sort_back (rev rp ++ c :: post) (length rp) = rev (ins c rp) ++ post.
  Proof.
    induction rp as [|a rp IH]; intros c post; [reflexivity|]. cbn [sort_back length rev ins].
    rewrite <- app_assoc. cbn [app].
    replace (nth (length rp) (rev rp ++ a :: c :: post) zero) with a by (rewrite <- (rev_length rp); symmetry; apply nth_at).
    replace (nth (S (length rp)) (rev rp ++ a :: c :: post) zero) with c.
    2: { replace (rev rp ++ a :: c :: post) with ((rev rp ++ [a]) ++ c :: post) by (rewrite <- app_assoc; reflexivity).
         replace (S (length rp)) with (length (rev rp ++ [a])) by (rewrite app_length, rev_length; cbn; lia). symmetry. apply nth_at. }
    destruct (leb a c); [cbn [rev]; rewrite <- !app_assoc; reflexivity|].
    replace (set_nth (rev rp ++ a :: c :: post) (length rp) c) with (rev rp ++ c :: c :: post) by (rewrite <- (rev_length rp); symmetry; apply set_at).
    replace (set_nth (rev rp ++ c :: c :: post) (S (length rp)) a) with (rev rp ++ c :: a :: post).
    - rewrite IH. cbn [rev]. rewrite <- app_assoc. reflexivity.
    - replace (rev rp ++ c :: c :: post) with ((rev rp ++ [c]) ++ c :: post) by (rewrite <- app_assoc; reflexivity).
      replace (S (length rp)) with (length (rev rp ++ [c])) by (rewrite app_length, rev_length; cbn; lia). rewrite set_at, <- app_assoc. reflexivity.
  Qed.
  Definition isort (l : list T) : list T := fold_left (fun rp c => ins c rp) l [].
  Lemma ins_length c rp : length (ins c rp) = S (length rp).
  Proof. induction rp as [|a rp IH]; cbn; [reflexivity|]. destruct (leb a c); cbn; auto. Qed.
  Lemma sort_ascending_isort l : sort_ascending l = rev (isort l).
  Proof.
    unfold sort_ascending, isort. destruct l as [|a l]; [reflexivity|]. cbn [length fold_left ins].
    replace (S (length l) - 1)%nat with (length l) by lia.
    assert (G : forall l rp, fold_left sort_back (seq (length rp) (length l)) (rev rp ++ l) = rev (fold_left (fun rp c => ins c rp) l rp)).
    { clear. induction l as [|c l IH]; intros rp; [cbn; apply app_nil_r|]. cbn [length seq fold_left]. rewrite sort_back_ins. rewrite <- IH. rewrite ins_length. reflexivity. }
    exact (G l [a]).
  Qed.
  Lemma ins_perm c rp : Permutation (ins c rp) (c :: rp).
  Proof. induction rp as [|a rp IH]; cbn; [auto|]. destruct (leb a c); [auto|]. rewrite IH. apply perm_swap. Qed.
  Lemma isort_perm l : Permutation (isort l) l.
  Proof.
    unfold isort. assert (G : forall rp, Permutation (fold_left (fun rp c => ins c rp) l rp) (l ++ rp)).
    { induction l as [|c l IH]; intros rp; [reflexivity|]. cbn [fold_left]. rewrite IH, ins_perm. symmetry. apply Permutation_middle. }
    rewrite G, app_nil_r. reflexivity.
  Qed.
  Lemma sort_perm l : Permutation (sort_ascending l) l.
  Proof. rewrite sort_ascending_isort, <- Permutation_rev. apply isort_perm. Qed.
End Sort.

Lemma ins_sorted (c : R) rp : Sorted Rge rp -> Sorted Rge (ins c rp).
Proof.
  induction 1 as [|a rp S IH H]; cbn [ins]; [repeat constructor|]. rnum. destruct (Rleb a c) eqn:E; [apply Rleb_true in E|apply Rleb_false in E].
  - constructor; [constructor; auto|constructor; lra].
  - constructor; [exact IH|]. destruct rp as [|b rp]; cbn [ins]; [constructor; lra|]. rnum. inversion H; subst. destruct (Rleb b c); constructor; lra.
Qed.
Lemma rev_sorted (l : list R) : Sorted Rge l -> Sorted Rle (rev l).
Proof.
  intros H. apply Sorted_StronglySorted in H; [|intros a b c; lra]. apply StronglySorted_Sorted.
  induction H as [|a l S IH F]; cbn; [constructor|].
  assert (Hg : forall l1, StronglySorted Rle l1 -> List.Forall (fun x => x <= a) l1 -> StronglySorted Rle (l1 ++ [a])).
  { induction 1 as [|b l1 S1 IH1 F1]; intros Fa; cbn; [repeat constructor|]. inversion Fa; subst. constructor; [auto|]. apply Forall_app. auto. }
  apply Hg; [exact IH|]. apply Forall_rev. revert F. apply Forall_impl. intros; lra.
Qed.
Lemma sort_sorted (l : list R) : Sorted Rle (sort_ascending l).
Proof.
  rewrite sort_ascending_isort. apply rev_sorted. unfold isort.
  assert (G : forall rp, Sorted Rge rp -> Sorted Rge (fold_left (fun rp c => ins c rp) l rp)).
  { induction l as [|c l IH]; intros rp H; [exact H|]. cbn. apply IH. apply ins_sorted. exact H. }
  apply G. constructor.
Qed.
Lemma product_perm l l' x : Permutation l l' -> product_of_factors l x = product_of_factors l' x.
Proof.
  unfold product_of_factors. induction 1; cbn; auto; try (rewrite IHPermutation; reflexivity); try ring. congruence.
Qed.

(** ** Closed forms *)
Lemma check_R (p : list R) h : roots_check p h = if Reqb h 0 then Err PoLeadingCoefficientZero else Ok tt.
Proof. unfold roots_check, poly_is_finite. replace (forallb is_finite p) with true; [reflexivity|]. induction p; auto. Qed.

(** the two zeros of a quadratic, as computed *)
Lemma quadratic_list (c b a : R) : a <> 0 ->
  (b * b - 4 * a * c < 0 /\ quadratic_roots c b a = Ok []) \/
  (0 <= b * b - 4 * a * c /\ exists r1 r2, quadratic_roots c b a = Ok (sort_ascending [r1; r2]) /\ forall x, c + b * x + a * (x * x) = a * ((x - r1) * (x - r2))).
Proof.
  intros Ha. unfold quadratic_roots. rewrite check_R. rewrite (proj2 (Reqb_false a 0) Ha).
  rnum. set (D := b * b - 4 / 1 * a * c). assert (ED : b * b - 4 * a * c = D) by (unfold D; field). rewrite ED.
  destruct (Rltb D 0) eqn:E; [left; apply Rltb_true in E; auto|right]. apply Rltb_false in E. split; [exact E|].
  set (s := R_sqrt.sqrt D). assert (Hs : s * s = D) by (apply sqrt_sqrt; exact E). assert (Hs0 : 0 <= s) by apply sqrt_pos.
  set (m := - / 2 * (b + Rcopysign s b)). unfold Reqb. destruct (Req_EM_T m 0) as [Z|Nz]; cbn [roots_push length Nat.ltb Nat.leb app].
  - exists 0, 0. split; [reflexivity|]. intros x. unfold m, Rcopysign in Z. rewrite Rabs_pos_eq in Z by exact Hs0.
    assert (b = 0) by (destruct (Rlt_dec b 0); lra). assert (s = 0) by (destruct (Rlt_dec b 0); lra). subst b.
    assert (a * c = 0) by (rewrite H0 in Hs; lra). apply Rmult_integral in H. destruct H; [contradiction|]. subst c. ring.
  - exists (m / a), (c / m). split; [reflexivity|]. intros x.
    assert (Q : m * m + b * m + a * c = 0).
    { unfold m, Rcopysign. rewrite Rabs_pos_eq by exact Hs0. destruct (Rlt_dec b 0); field_simplify; replace (s ^ 2) with D by (rewrite <- Hs; ring); unfold D; field. }
    replace b with (- (m + a * c / m)) by (apply (Rmult_eq_reg_r m); [field_simplify; [lra|auto]|auto]). field. auto.
Qed.
(** over the reals it never fails on a non-zero leading coefficient *)
Lemma quadratic_positive (c b a x : R) : a <> 0 -> b * b - 4 * a * c < 0 -> c + b * x + a * (x * x) <> 0.
Proof.
  intros Ha D E. assert (H : 4 * a * (c + b * x + a * (x * x)) = (2 * a * x + b) * (2 * a * x + b) - (b * b - 4 * a * c)) by ring.
  rewrite E in H. pose proof (Rle_0_sqr (2 * a * x + b)). unfold Rsqr in *. lra.
Qed.
Lemma cube_inj a b : a * a * a = b * b * b -> a = b.
Proof.
  intros H. assert (F : (a - b) * (a * a + a * b + b * b) = 0) by (ring_simplify; ring_simplify in H; lra).
  apply Rmult_integral in F. destruct F as [F|F]; [lra|].
  assert (E : (a + b / 2) * (a + b / 2) + 3 / 4 * (b * b) = 0) by (rewrite <- F; field).
  pose proof (Rle_0_sqr (a + b / 2)). pose proof (Rle_0_sqr b). unfold Rsqr in *.
  assert (B : b * b = 0) by lra. assert (A : (a + b / 2) * (a + b / 2) = 0) by lra.
  apply Rmult_integral in B. apply Rmult_integral in A. destruct A, B; lra.
Qed.
Lemma Rcbrt_cube x : Rcbrt x * Rcbrt x * Rcbrt x = x.
Proof.
  assert (P : forall y, 0 < y -> Rpower y (/ 3) * Rpower y (/ 3) * Rpower y (/ 3) = y).
  { intros y Hy. rewrite <- !Rpower_plus. replace (/ 3 + / 3 + / 3) with 1 by field. apply Rpower_1. exact Hy. }
  unfold Rcbrt. destruct (Req_EM_T x 0) as [->|]; [ring|]. destruct (Rlt_dec x 0) as [H|H].
  - specialize (P (- x) ltac:(lra)). set (r := Rpower (- x) (/ 3)) in *. lra.
  - apply P. lra.
Qed.

Definition dep (p q y : R) : R := y * y * y + p * y + q.
Lemma cubic_shift (c b a2 a x : R) : a <> 0 ->
  value_at [c; b; a2; a] x = a * dep (cubic_reduced_linear b a2 a) (cubic_reduced_constant c b a2 a) (x - cubic_slide a2 a).
Proof.
  intros Ha. unfold value_at, dep, cubic_reduced_linear, cubic_reduced_constant, cubic_slide. cbn [bsum length nth pow]. rnum. field. exact Ha.
Qed.
(** one real zero and a positive factor *)
Lemma dep_one p q y0 : dep p q y0 = 0 -> 0 < 3 * (y0 * y0) + 4 * p -> forall y,
  dep p q y = (y - y0) * (y * y + y0 * y + (y0 * y0 + p)) /\ 0 < y * y + y0 * y + (y0 * y0 + p).
Proof.
  intros Z H y. unfold dep in *. split.
  - replace q with (- (y0 * y0 * y0 + p * y0)) by lra. ring.
  - pose proof (Rle_0_sqr (y + y0 / 2)). unfold Rsqr in *. lra.
Qed.
Lemma dep_trig p q : p <> 0 -> 4 * (p * p * p) + 27 * q * q <= 0 ->
  let radius := 2 * R_sqrt.sqrt (- p / 3) in
  let cosine := (3 * q) / (2 * p) * R_sqrt.sqrt (- 3 / p) in
  let angle := Ratan.acos (Rmin (Rmax cosine (- 1)) 1) in
  forall y, dep p q y = (y - radius * Rtrigo_def.cos (angle / 3 - 2 * PI * 0 / 3)) *
    ((y - radius * Rtrigo_def.cos (angle / 3 - 2 * PI * 1 / 3)) * (y - radius * Rtrigo_def.cos (angle / 3 - 2 * PI * 2 / 3))).
Proof.
  intros Np D radius cosine angle y.
  assert (Hp : p < 0).
  { destruct (Rlt_dec p 0); auto. exfalso. assert (0 < p) by lra. pose proof (Rle_0_sqr q). unfold Rsqr in *.
    assert (0 < p * p * p) by (repeat apply Rmult_lt_0_compat; auto). lra. }
  set (k := R_sqrt.sqrt (- p / 3)). set (m := R_sqrt.sqrt (- 3 / p)).
  assert (Hk : k * k = - p / 3). { apply sqrt_sqrt. apply Rmult_le_pos; lra. }
  assert (Pm : 0 < - 3 / p) by (replace (- 3 / p) with (3 * / (- p)) by (field; lra); apply Rmult_lt_0_compat; [lra|apply Rinv_0_lt_compat; lra]).
  assert (Hm : m * m = - 3 / p) by (apply sqrt_sqrt; lra).
  assert (Km : k * m = 1). { unfold k, m. rewrite <- sqrt_mult by (try lra; apply Rmult_le_pos; lra). replace (- p / 3 * (- 3 / p)) with 1 by (field; lra). apply sqrt_1. }
  assert (C2 : cosine * cosine <= 1).
  { unfold cosine. fold m. replace (3 * q / (2 * p) * m * (3 * q / (2 * p) * m)) with (9 * (q * q) / (4 * (p * p)) * (m * m)) by (field; lra). rewrite Hm.
    replace (9 * (q * q) / (4 * (p * p)) * (- 3 / p)) with (27 * q * q * / (- (4 * (p * p * p)))) by (field; lra).
    assert (P3 : 0 < - (4 * (p * p * p))). { assert (0 < (- p) * (- p) * (- p)) by (repeat apply Rmult_lt_0_compat; lra). lra. }
    apply (Rmult_le_reg_r (- (4 * (p * p * p)))); [exact P3|]. rewrite Rmult_assoc, Rinv_l by lra. lra. }
  assert (C1 : -1 <= cosine <= 1) by (split; nra).
  assert (Ec : Rmin (Rmax cosine (- 1)) 1 = cosine) by (rewrite Rmax_left by lra; apply Rmin_left; lra).
  assert (Ca : Rtrigo_def.cos angle = cosine) by (unfold angle; rewrite Ec; apply cos_acos; exact C1).
  set (f := angle / 3). assert (Ea : angle = 3 * f) by (unfold f; field).
  assert (Triple : 4 * (Rtrigo_def.cos f * Rtrigo_def.cos f * Rtrigo_def.cos f) - 3 * Rtrigo_def.cos f = cosine).
  { rewrite <- Ca, Ea. replace (3 * f) with (2 * f + f) by ring. rewrite cos_plus, cos_2a, sin_2a. pose proof (sin2_cos2 f) as SC. unfold Rsqr in SC.
    replace (Rtrigo_def.cos f * Rtrigo_def.cos f - Rtrigo_def.sin f * Rtrigo_def.sin f) with (2 * (Rtrigo_def.cos f * Rtrigo_def.cos f) - 1) by lra.
    replace (2 * Rtrigo_def.sin f * Rtrigo_def.cos f * Rtrigo_def.sin f) with (2 * Rtrigo_def.cos f * (Rtrigo_def.sin f * Rtrigo_def.sin f)) by ring.
    replace (Rtrigo_def.sin f * Rtrigo_def.sin f) with (1 - Rtrigo_def.cos f * Rtrigo_def.cos f) by lra. ring. }
  replace (f - 2 * PI * 0 / 3) with f by field.
  (* the other two angles *)
  assert (A1 : Rtrigo_def.cos (f - 2 * PI * 1 / 3) = - Rtrigo_def.cos f / 2 + R_sqrt.sqrt 3 / 2 * Rtrigo_def.sin f).
  { rewrite cos_minus. replace (2 * PI * 1 / 3) with (2 * (PI / 3)) by field. rewrite cos_2PI3, sin_2PI3. field. }
  assert (A2 : Rtrigo_def.cos (f - 2 * PI * 2 / 3) = - Rtrigo_def.cos f / 2 - R_sqrt.sqrt 3 / 2 * Rtrigo_def.sin f).
  { replace (f - 2 * PI * 2 / 3) with ((f - PI) - PI / 3) by field.
    rewrite cos_minus. rewrite cos_PI3, sin_PI3.
    assert (Em : f - PI = - (PI - f)) by ring. rewrite Em, cos_neg, sin_neg.
    rewrite Rtrigo_facts.cos_pi_minus, Rtrigo_facts.sin_pi_minus. field. }
  rewrite A1, A2. unfold radius. fold k.
  set (c := Rtrigo_def.cos f) in *. set (s := Rtrigo_def.sin f) in *. pose proof (sin2_cos2 f) as SC. unfold Rsqr in SC. fold c s in SC.
  assert (S3 : R_sqrt.sqrt 3 * R_sqrt.sqrt 3 = 3) by (apply sqrt_sqrt; lra). set (t := R_sqrt.sqrt 3) in *.
  (* Vieta *)
  assert (Q : 2 * k * k * k * cosine = - q).
  { unfold cosine. fold m. replace (2 * k * k * k * (3 * q / (2 * p) * m)) with (3 * q / p * (k * k) * (k * m)) by (field; lra). rewrite Hk, Km. field. lra. }
  rewrite <- Triple in Q. unfold dep.
  assert (Hs : s * s = 1 - c * c) by lra.
  transitivity (y * y * y - 3 * (k * k) * y - 2 * k * k * k * (4 * (c * c * c) - 3 * c)).
  - rewrite Hk, Q. field.
  - transitivity (y * y * y + y * (k * k) * (- 3 * (c * c) - (t * t) * (s * s)) - 2 * (k * k * k) * c * (c * c - (t * t) * (s * s))).
    + rewrite S3, Hs. ring.
    + field.
Qed.
Lemma dep_cardano p q : 0 < 4 * (p * p * p) + 27 * q * q ->
  let h := - q * / 2 in let s := R_sqrt.sqrt (q * q / 4 + p * p * p / 27) in
  let y0 := Rcbrt (h + s) + Rcbrt (h - s) in
  dep p q y0 = 0 /\ 0 < 3 * (y0 * y0) + 4 * p.
Proof.
  intros D h s y0. set (u := Rcbrt (h + s)). set (v := Rcbrt (h - s)).
  assert (Hs : s * s = q * q / 4 + p * p * p / 27) by (apply sqrt_sqrt; lra).
  assert (Hu : u * u * u = h + s) by apply Rcbrt_cube. assert (Hv : v * v * v = h - s) by apply Rcbrt_cube.
  assert (UV : u * v = - p / 3).
  { apply cube_inj. replace (u * v * (u * v) * (u * v)) with ((u * u * u) * (v * v * v)) by ring. rewrite Hu, Hv.
    replace ((h + s) * (h - s)) with (h * h - s * s) by ring. rewrite Hs. unfold h. field. }
  replace y0 with (u + v) by reflexivity. split.
  - unfold dep. replace ((u + v) * (u + v) * (u + v)) with (u * u * u + v * v * v + 3 * (u * v) * (u + v)) by ring. rewrite Hu, Hv, UV. unfold h. field.
  - replace (3 * ((u + v) * (u + v)) + 4 * p) with (3 * ((u - v) * (u - v))) by (replace p with (-3 * (u * v)) by lra; ring).
    assert (Np : u <> v). { intros E. rewrite E in Hu. assert (s = 0) by lra. rewrite H in Hs. lra. }
    assert (0 < (u - v) * (u - v)); [|lra]. destruct (Rlt_dec u v); [replace ((u - v) * (u - v)) with ((v - u) * (v - u)) by ring|]; apply Rmult_lt_0_compat; lra.
Qed.

Lemma powi3 (x : R) : powi x 3 = x * x * x.
Proof. unfold powi. cbn [powi_loop]. rnum. ring. Qed.
Lemma powi4 (x : R) : powi x 4 = x * x * x * x.
Proof. unfold powi. cbn [powi_loop]. rnum. ring. Qed.

(** what the cubic's cases return, before sorting *)
Lemma cubic_cases_spec p q slide :
  (p = 0 /\ q = 0 /\ cubic_cases p q slide = [slide]) \/
  (exists y0, cubic_cases p q slide = [y0 + slide] /\ dep p q y0 = 0 /\ 0 < 3 * (y0 * y0) + 4 * p) \/
  (exists y0 y1 y2, cubic_cases p q slide = [y0 + slide; y1 + slide; y2 + slide] /\ forall y, dep p q y = (y - y0) * ((y - y1) * (y - y2))).
Proof.
  unfold cubic_cases. rewrite !powi3. rnum. unfold Reqb. destruct (Req_EM_T p 0) as [->|Np].
  - cbn [roots_push length Nat.ltb Nat.leb app]. pose proof (Rcbrt_cube (- q)) as C. set (r := Rcbrt (- q)) in *.
    destruct (Req_EM_T q 0) as [->|Nq].
    + left. split; [reflexivity|]. split; [reflexivity|]. f_equal. assert (r = 0) by (apply cube_inj; lra). lra.
    + right. left. exists r. split; [reflexivity|]. unfold dep. split; [lra|]. assert (r <> 0) by (intros E; rewrite E in C; lra).
      assert (0 < r * r); [|lra]. destruct (Rlt_dec r 0); [replace (r * r) with ((- r) * (- r)) by ring|]; apply Rmult_lt_0_compat; lra.
  - right. destruct (Rleb (4 / 1 * (p * p * p) + 27 / 1 * q * q) 0) eqn:E.
    + apply Rleb_true in E. right. cbn [seq fold_left roots_push length Nat.ltb Nat.leb app]. rewrite !of_nat_INR. cbn [INR].
      eexists _, _, _. split; [reflexivity|]. intros y. pose proof (dep_trig p q Np ltac:(lra) y) as H. cbv zeta in H. rewrite H.
      replace (1 + 1) with 2 by ring. reflexivity.
    + apply Rleb_false in E. left. cbn [roots_push length Nat.ltb Nat.leb app].
      destruct (dep_cardano p q ltac:(lra)) as [Z P]. eexists. split; [reflexivity|].
      replace (q * q / (4 / 1) + p * p * p / (27 / 1)) with (q * q / 4 + p * p * p / 27) by field. split; [exact Z|exact P].
Qed.

(** ** Splitting a function into its real linear factors *)
Definition fac (f : R -> R) (L : list R) : Prop := exists g, (forall x, peval g x <> 0) /\ forall x, f x = product_of_factors L x * peval g x.
Lemma fac_ext f f' L : (forall x, f x = f' x) -> fac f L -> fac f' L.
Proof. intros E (g & N & F). exists g. split; [exact N|]. intros x. rewrite <- E. apply F. Qed.
Lemma fac_perm f L L' : Permutation L L' -> fac f L -> fac f L'.
Proof. intros P (g & N & F). exists g. split; [exact N|]. intros x. rewrite <- (product_perm _ _ x P). apply F. Qed.
Lemma product_app L M x : product_of_factors (L ++ M) x = product_of_factors L x * product_of_factors M x.
Proof. unfold product_of_factors. induction L as [|a L IH]; cbn; [ring|]. rewrite IH. ring. Qed.
Lemma fac_mul f h L M : fac f L -> fac h M -> fac (fun x => f x * h x) (L ++ M).
Proof.
  intros (g & N & F) (k & N' & H). exists (pmul g k). split.
  - intros x. rewrite peval_pmul. intros Z. apply Rmult_integral in Z. destruct Z; [apply (N x)|apply (N' x)]; auto.
  - intros x. rewrite peval_pmul, product_app, F, H. ring.
Qed.
Lemma fac_shift f L s : fac f L -> fac (fun x => f (x - s)) (map (fun r => r + s) L).
Proof.
  intros (g & N & F). exists (poly_shift_argument g (- s)). split; intros x; rewrite shift_argument_eval; [apply N|].
  replace (x + - s) with (x - s) by ring. rewrite F. apply Rmult_eq_compat_r. clear F. unfold product_of_factors. induction L as [|a L IH]; cbn; [reflexivity|]. rewrite IH. ring.
Qed.
Lemma fac_const a : a <> 0 -> fac (fun _ => a) [].
Proof. intros H. exists [a]. split; intros x; cbn; [|ring]. intros E. apply H. lra. Qed.
Lemma fac_lin r : fac (fun x => x - r) [r].
Proof. exists [1]. split; intros x; cbn; lra. Qed.
Lemma fac_none c b a : (forall x, c + b * x + a * (x * x) <> 0) -> fac (fun x => c + b * x + a * (x * x)) [].
Proof. intros H. exists [c; b; a]. split; intros x; cbn; [|ring]. intros E. apply (H x). lra. Qed.
Lemma fac_zero f L x : fac f L -> (In x L <-> f x = 0).
Proof.
  intros (g & N & F). rewrite F. rewrite <- product_of_factors_zero. split; [intros ->; ring|].
  intros H. apply Rmult_integral in H. destruct H as [H|H]; [exact H|]. exfalso. apply (N x H).
Qed.
Lemma fac_all c L : fac (peval c) L -> all_real_roots c (sort_ascending L).
Proof.
  intros H. split; [apply sort_sorted|]. apply (fac_perm _ _ (sort_ascending L)) in H; [|symmetry; apply sort_perm].
  destruct H as (g & N & F). exists g. split; intros x; rewrite ?value_at_peval; auto.
Qed.
Lemma all_exact c L : all_real_roots c L -> exactly_the_zeros c L.
Proof.
  intros (S & g & N & F). split; [exact S|]. intros x. rewrite value_at_peval. apply (fac_zero (peval c) L x). exists g.
  split; intros y; rewrite <- ?value_at_peval; auto.
Qed.

Lemma quadratic_fac c b a : a <> 0 -> exists L, quadratic_roots c b a = Ok L /\ fac (fun x => c + b * x + a * (x * x)) L /\ Sorted Rle L /\ (length L <= 2)%nat.
Proof.
  intros Ha. destruct (quadratic_list c b a Ha) as [(D & E)|(D & r1 & r2 & E & F)]; rewrite E.
  - exists []. split; [reflexivity|]. split; [|split; [constructor|cbn; lia]]. apply fac_none. intros x. apply quadratic_positive; auto.
  - eexists. split; [reflexivity|]. split; [|split; [apply sort_sorted|rewrite (Permutation_length (sort_perm [r1; r2])); cbn; lia]].
    apply (fac_perm _ [r1; r2]); [symmetry; apply sort_perm|].
    apply (fac_ext (fun x => a * ((x - r1) * (x - r2)))); [intros x; rewrite F; ring|].
    change [r1; r2] with ([] ++ [r1] ++ [r2]). apply (fac_mul (fun _ => a) _ _ _ (fac_const a Ha)). apply (fac_mul _ _ _ _ (fac_lin r1) (fac_lin r2)).
Qed.
(** the cubic: all zeros with multiplicity, except that a triple zero is listed once *)
Lemma cubic_fac c b a2 a : a <> 0 -> exists L, cubic_roots c b a2 a = Ok (sort_ascending L) /\
  (fac (peval [c; b; a2; a]) L \/ exists r, L = [r] /\ forall x, peval [c; b; a2; a] x = a * ((x - r) * (x - r) * (x - r))).
Proof.
  intros Ha. unfold cubic_roots. rewrite check_R, (proj2 (Reqb_false a 0) Ha).
  set (p := cubic_reduced_linear b a2 a). set (q := cubic_reduced_constant c b a2 a). set (s := cubic_slide a2 a).
  assert (Sh : forall x, peval [c; b; a2; a] x = a * dep p q (x - s)) by (intros x; rewrite <- value_at_peval; apply cubic_shift; exact Ha).
  eexists. split; [reflexivity|].
  destruct (cubic_cases_spec p q s) as [(P0 & Q0 & ->)|[(y0 & -> & Z & G)|(y0 & y1 & y2 & -> & F)]].
  - right. exists s. split; [reflexivity|]. intros x. rewrite Sh, P0, Q0. unfold dep. ring.
  - left. apply (fac_ext (fun x => a * dep p q (x - s))); [intros x; symmetry; apply Sh|].
    change [y0 + s] with ([] ++ map (fun r => r + s) [y0]). apply (fac_mul (fun _ => a)); [apply fac_const; exact Ha|].
    apply (fac_shift (dep p q)). apply (fac_ext (fun y => (y - y0) * ((y0 * y0 + p) + y0 * y + 1 * (y * y)))).
    { intros y. rewrite (proj1 (dep_one p q y0 Z G y)). ring. }
    change [y0] with ([y0] ++ []). apply (fac_mul _ _ _ _ (fac_lin y0)). apply fac_none. intros y. pose proof (proj2 (dep_one p q y0 Z G y)). lra.
  - left. apply (fac_ext (fun x => a * dep p q (x - s))); [intros x; symmetry; apply Sh|].
    change [y0 + s; y1 + s; y2 + s] with ([] ++ map (fun r => r + s) [y0; y1; y2]). apply (fac_mul (fun _ => a)); [apply fac_const; exact Ha|].
    apply (fac_shift (dep p q)). apply (fac_ext (fun y => (y - y0) * ((y - y1) * (y - y2)))); [intros y; symmetry; apply F|].
    change [y0; y1; y2] with ([y0] ++ [y1] ++ [y2]). apply fac_mul; [apply fac_lin|]. apply fac_mul; apply fac_lin.
Qed.
Lemma cubic_zeros c b a2 a : a <> 0 -> exists L, cubic_roots c b a2 a = Ok L /\ exactly_the_zeros [c; b; a2; a] L.
Proof.
  intros Ha. destruct (cubic_fac c b a2 a Ha) as (L & E & [F|(r & -> & F)]); exists (sort_ascending L) || exists (sort_ascending [r]); split; auto.
  - apply all_exact, fac_all, F.
  - split; [apply sort_sorted|]. intros x. change (sort_ascending [r]) with [r]. rewrite value_at_peval, F. cbn [In]. split.
    + intros [->|[]]. ring.
    + intros H. left. apply Rmult_integral in H. destruct H as [H|H]; [contradiction|]. apply Rmult_integral in H. destruct H as [H|H]; [|lra].
      apply Rmult_integral in H. destruct H; lra.
Qed.

(** the quartic's helper has a positive zero, so its largest is positive *)
Lemma last_max (L : list R) d x : Sorted Rle L -> In x L -> x <= last L d /\ In (last L d) L.
Proof.
  intros H. apply Sorted_StronglySorted in H; [|intros u v w; lra]. revert x. induction H as [|a L S IH F]; [easy|]. intros x Hx.
  destruct L as [|b L]; [destruct Hx as [->|[]]; cbn; split; [lra|auto]|]. change (last (a :: b :: L) d) with (last (b :: L) d).
  destruct Hx as [->|Hx].
  - destruct (IH b (or_introl eq_refl)) as [Hb Hi]. split; [|right; exact Hi]. rewrite Forall_forall in F. apply F. exact Hi.
  - destruct (IH x Hx). split; [auto|right; auto].
Qed.
Lemma helper_positive p q r : q <> 0 -> exists m, 0 < m /\ peval [- q * q; 2 * p * p - 8 * r; 8 * p; 8] m = 0.
Proof.
  intros Nq. set (h := [- q * q; 2 * p * p - 8 * r; 8 * p; 8]).
  assert (Q2 : 0 < q * q) by (destruct (Rlt_dec q 0); [replace (q * q) with (- q * - q) by ring|]; apply Rmult_lt_0_compat; lra).
  set (M := 1 + Rabs p + Rabs r + q * q).
  assert (H0 : peval h 0 < 0) by (cbn; lra).
  assert (Pp := Rabs_pos p). assert (Pr := Rabs_pos r).
  assert (Hp : - p <= Rabs p) by (rewrite <- Rabs_Ropp; apply Rle_abs). assert (Hr : r <= Rabs r) by apply Rle_abs.
  assert (M1 : 1 <= M) by (unfold M; lra).
  assert (HM : 0 < peval h M).
  { cbn. assert (A : 1 + Rabs r + q * q <= M + p) by (unfold M; lra).
    assert (B : M * M * (1 + Rabs r + q * q) <= M * M * (M + p)) by (apply Rmult_le_compat_l; [nra|lra]).
    assert (C : M * r <= M * Rabs r) by (apply Rmult_le_compat_l; lra).
    assert (D : M * Rabs r <= M * M * Rabs r) by (apply Rmult_le_compat_r; nra).
    assert (E : q * q <= M * M * (q * q)) by (assert (1 <= M * M) by nra; assert (1 * (q * q) <= M * M * (q * q)) by (apply Rmult_le_compat_r; lra); lra).
    assert (G : 0 <= M * (p * p)) by (apply Rmult_le_pos; nra). assert (1 <= M * M) by nra.
    ring_simplify. ring_simplify in B. ring_simplify in C. ring_simplify in D. ring_simplify in E. ring_simplify in G. nra. }
  destruct (IVT (peval h) 0 M (continuity_peval h) ltac:(lra) H0 HM) as (m & [Hm _] & Z).
  exists m. split; [|exact Z]. destruct (Req_dec m 0) as [->|]; [|lra]. rewrite Z in H0. lra.
Qed.

Definition dep4 (p q r y : R) : R := y * y * y * y + p * (y * y) + q * y + r.
Lemma quartic_shift c b a2 a3 a x : a <> 0 ->
  peval [c; b; a2; a3; a] x = a * dep4 (quartic_reduced_quadratic a2 a3 a) (quartic_reduced_linear b a2 a3 a) (quartic_reduced_constant c b a2 a3 a) (x - quartic_slide a3 a).
Proof.
  intros Ha. unfold dep4, quartic_reduced_quadratic, quartic_reduced_linear, quartic_reduced_constant, quartic_slide. rewrite !powi3, !powi4. cbn [peval]. rnum. field. exact Ha.
Qed.
Lemma push_ok {T} n (l : list T) x : (length l < n)%nat -> roots_push n l x = l ++ [x].
Proof. intros H. unfold roots_push. rewrite (proj2 (Nat.ltb_lt _ _) H). reflexivity. Qed.
Lemma even_step z L s : (length L + 2 <= 4)%nat -> exists M, (length M <= 2)%nat /\ fac (fun y => y * y - z) M /\
  (if Rleb 0 z then roots_push 4 (roots_push 4 L (R_sqrt.sqrt z + s)) (- R_sqrt.sqrt z + s) else L) = L ++ map (fun r => r + s) M.
Proof.
  intros H. destruct (Rleb 0 z) eqn:E; [apply Rleb_true in E|apply Rleb_false in E].
  - exists [R_sqrt.sqrt z; - R_sqrt.sqrt z]. split; [cbn; lia|]. split.
    + apply (fac_ext (fun y => (y - R_sqrt.sqrt z) * (y - - R_sqrt.sqrt z))).
      * intros y. assert (R_sqrt.sqrt z * R_sqrt.sqrt z = z) by (apply sqrt_sqrt; lra). lra.
      * apply (fac_mul _ _ [_] [_]); apply fac_lin.
    + rewrite (push_ok 4 L) by lia. rewrite push_ok by (rewrite app_length; cbn; lia). rewrite <- app_assoc. reflexivity.
  - exists []. split; [cbn; lia|]. split; [|cbn; rewrite app_nil_r; reflexivity].
    apply (fac_ext (fun y => - z + 0 * y + 1 * (y * y))); [intros y; ring|]. apply fac_none. intros y. nra.
Qed.
Lemma quartic_even_fac p r s : exists L, quartic_even p r s = Ok (map (fun y => y + s) L) /\ (length L <= 4)%nat /\ fac (dep4 p 0 r) L.
Proof.
  unfold quartic_even. rnum. destruct (quadratic_list r p 1 ltac:(lra)) as [(D & ->)|(D & z1 & z2 & -> & G)].
  - exists []. split; [reflexivity|]. split; [cbn; lia|]. exists [r; 0; p; 0; 1]. split; intros y.
    + pose proof (quadratic_positive r p 1 (y * y) ltac:(lra) D) as N. intros E. apply N. rewrite <- E. cbn. ring.
    + unfold dep4. cbn. ring.
  - assert (P : exists w1 w2, sort_ascending [z1; z2] = [w1; w2] /\ forall x, r + p * x + 1 * (x * x) = (x - w1) * (x - w2)).
    { pose proof (sort_perm [z1; z2]) as P. apply Permutation_sym, Permutation_length_2_inv in P. destruct P as [->| ->]; [exists z1, z2|exists z2, z1]; split; auto; intros x; rewrite G; ring. }
    destruct P as (w1 & w2 & -> & G'). cbn [fold_left].
    destruct (even_step w1 [] s ltac:(cbn; lia)) as (M1 & L1 & F1 & ->).
    destruct (even_step w2 ([] ++ map (fun r => r + s) M1) s ltac:(cbn; rewrite map_length; lia)) as (M2 & L2 & F2 & ->).
    exists (M1 ++ M2). split; [cbn [app]; rewrite map_app; reflexivity|]. split; [rewrite app_length; lia|].
    apply (fac_ext (fun y => (y * y - w1) * (y * y - w2))); [intros y; rewrite <- G'; unfold dep4; ring|]. apply fac_mul; auto.
Qed.
Lemma push_all s M : forall L, (length L + length M <= 4)%nat -> fold_left (fun roots root => roots_push 4 roots (root + s)) M L = L ++ map (fun r => r + s) M.
Proof.
  induction M as [|a M IH]; intros L H; cbn [fold_left map]; [symmetry; apply app_nil_r|]. cbn [length] in H. rewrite push_ok by lia.
  rewrite IH by (rewrite app_length; cbn; lia). rewrite <- app_assoc. reflexivity.
Qed.
Lemma quartic_split_fac p q r s : q <> 0 -> exists L, quartic_split p q r s = Ok (map (fun y => y + s) L) /\ fac (dep4 p q r) L.
Proof.
  intros Nq. unfold quartic_split. rnum.
  replace (2 * p * p - 8 / 1 * r) with (2 * p * p - 8 * r) by field. replace (8 / 1 * p) with (8 * p) by field. replace (8 / 1) with 8 by field.
  destruct (cubic_zeros (- q * q) (2 * p * p - 8 * r) (8 * p) 8 ltac:(lra)) as (H & -> & Srt & Zs).
  destruct (helper_positive p q r Nq) as (m0 & P0 & Z0). rewrite <- value_at_peval, <- Zs in Z0.
  destruct (last_max H 0 m0 Srt Z0) as [Ge In_m]. set (m := last H 0) in *. assert (Pm : 0 < m) by lra.
  apply Zs in In_m. rewrite value_at_peval in In_m. cbn [peval] in In_m.
  set (sep := R_sqrt.sqrt (2 * m)). assert (S2 : sep * sep = 2 * m) by (apply sqrt_sqrt; lra).
  assert (Ps : 0 < sep) by (apply sqrt_lt_R0; lra).
  set (shared := p * / 2 + m). set (apart := q / (2 * sep)).
  destruct (quadratic_fac (shared + apart) (- sep) 1 ltac:(lra)) as (L1 & -> & F1 & _ & Le1).
  destruct (quadratic_fac (shared - apart) sep 1 ltac:(lra)) as (L2 & -> & F2 & _ & Le2).
  exists (L1 ++ L2). split.
  - f_equal. rewrite (push_all s L1 []) by (cbn; lia). rewrite push_all by (cbn; rewrite map_length; lia). rewrite map_app. reflexivity.
  - apply (fac_ext (fun x => (shared + apart + - sep * x + 1 * (x * x)) * (shared - apart + sep * x + 1 * (x * x)))); [|apply fac_mul; auto].
    intros y. assert (A : 2 * sep * apart = q) by (unfold apart; field; lra).
    assert (B : apart * apart = q * q / (8 * m)).
    { unfold apart. replace (q / (2 * sep) * (q / (2 * sep))) with (q * q / (4 * (sep * sep))) by (field; lra). rewrite S2. field. lra. }
    assert (C : shared * shared - apart * apart = r).
    { rewrite B. apply (Rmult_eq_reg_r (8 * m)); [|lra]. unfold shared. field_simplify; [|lra]. ring_simplify in In_m. lra. }
    unfold dep4. transitivity (y * y * y * y + (2 * shared - sep * sep) * (y * y) + (2 * sep * apart) * y + (shared * shared - apart * apart)); [ring|].
    rewrite S2, A, C. unfold shared. field.
Qed.
Lemma quartic_all c b a2 a3 a : a <> 0 -> exists L, quartic_roots c b a2 a3 a = Ok L /\ all_real_roots [c; b; a2; a3; a] L.
Proof.
  intros Ha. unfold quartic_roots. rewrite check_R, (proj2 (Reqb_false a 0) Ha).
  pose proof (fun x => quartic_shift c b a2 a3 a x Ha) as Sh.
  set (p := quartic_reduced_quadratic a2 a3 a) in *. set (q := quartic_reduced_linear b a2 a3 a) in *. set (r := quartic_reduced_constant c b a2 a3 a) in *. set (s := quartic_slide a3 a) in *.
  assert (G : exists L, (if eqb q zero then quartic_even p r s else quartic_split p q r s) = Ok (map (fun y => y + s) L) /\ fac (dep4 p q r) L).
  { change (eqb q zero) with (Reqb q 0). unfold Reqb. destruct (Req_EM_T q 0) as [->|Nq].
    - destruct (quartic_even_fac p r s) as (L & E & _ & F). exists L; auto.
    - apply quartic_split_fac; exact Nq. }
  destruct G as (L & E & F). rnum. change (eqb q zero) with (Reqb q 0) in E. rewrite E.
  eexists. split; [reflexivity|]. apply fac_all. apply (fac_ext (fun x => a * dep4 p q r (x - s))); [intros x; symmetry; apply Sh|].
  change (map (fun y => y + s) L) with ([] ++ map (fun y => y + s) L). apply (fac_mul (fun _ => a)); [apply fac_const; exact Ha|].
  apply (fac_shift (dep4 p q r)). exact F.
Qed.

(** ** The Cauchy bound *)
Lemma fold_max_ge (f : R -> R) l : forall i, i <= fold_left (fun m c => Rmax m (f c)) l i /\ forall c, In c l -> f c <= fold_left (fun m c => Rmax m (f c)) l i.
Proof.
  induction l as [|a l IH]; intros i; cbn [fold_left]; [split; [lra|easy]|]. destruct (IH (Rmax i (f a))) as [H1 H2].
  pose proof (Rmax_l i (f a)). pose proof (Rmax_r i (f a)). split; [lra|]. intros c [->|Hc]; [lra|apply H2; exact Hc].
Qed.
Lemma geometric_bound M y n : 0 <= M -> M <= y - 1 -> M * bsum n (fun k => y ^ k) <= y ^ n - 1.
Proof.
  intros H0 H. induction n as [|n IH]; cbn [bsum pow]; [lra|]. rewrite Rmult_plus_distr_l.
  assert (0 < y ^ n) by (apply pow_lt; lra). assert (M * y ^ n <= (y - 1) * y ^ n) by (apply Rmult_le_compat_r; lra). lra.
Qed.
Lemma Rabs_bsum n f : Rabs (bsum n f) <= bsum n (fun k => Rabs (f k)).
Proof. induction n as [|n IH]; cbn [bsum]; [rewrite Rabs_R0; lra|]. eapply Rle_trans; [apply Rabs_triang|]. lra. Qed.
Lemma cauchy_spec c bound x : cauchy_root_bound c = Ok bound -> peval c x = 0 -> Rabs x < bound.
Proof.
  unfold cauchy_root_bound. destruct (negb _); [discriminate|]. pose proof (degree_spec c) as D. destruct (poly_degree c) as [n|]; [|discriminate].
  unfold poly_coefficient. destruct (nth_error c n) as [h|] eqn:Eh; [|discriminate]. intros E Z. injection E as <-. destruct D as [N D].
  assert (Hh : cf c n = h) by (apply nth_error_nth; exact Eh). rewrite Hh in N. rnum.
  destruct (fold_max_ge (fun a => Rabs (a / h)) (firstn n c) 0) as [M0 MM]. set (M := fold_left _ (firstn n c) 0) in *.
  destruct (Rlt_dec (Rabs x) (1 + M)) as [|H]; [assumption|]. exfalso. assert (Hx : M <= Rabs x - 1) by lra.
  assert (Ln : (n < length c)%nat) by (apply nth_error_Some; congruence).
  assert (V : peval c x = bsum n (fun k => cf c k * x ^ k) + h * x ^ n).
  { rewrite peval_bsum. replace (length c) with (S n + (length c - S n))%nat by lia. clear - D Hh Ln.
    generalize (length c - S n)%nat. intros m. induction m as [|m IH]; [rewrite Nat.add_0_r; cbn [bsum]; rewrite Hh; ring|].
    replace (S n + S m)%nat with (S (S n + m)) by lia. cbn [bsum]. rewrite (D (S n + m)%nat) by lia. rewrite IH. ring. }
  rewrite Z in V.
  assert (B : Rabs (bsum n (fun k => cf c k * x ^ k)) <= Rabs h * (M * bsum n (fun k => Rabs x ^ k))).
  { eapply Rle_trans; [apply Rabs_bsum|]. rewrite <- !bsum_scal. apply bsum_le. intros k Hk. rewrite Rabs_mult, <- RPow_abs.
    assert (Hc : Rabs (cf c k / h) <= M).
    { apply MM. replace (cf c k) with (cf (firstn n c) k) by (rewrite cf_firstn; rewrite (proj2 (Nat.ltb_lt _ _) Hk); reflexivity). apply nth_In. rewrite firstn_length. lia. }
    rewrite Rabs_div in Hc by exact N. assert (Ph : 0 < Rabs h) by (apply Rabs_pos_lt; exact N).
    assert (Hc' : Rabs (cf c k) <= Rabs h * M).
    { apply (Rmult_le_compat_l (Rabs h)) in Hc; [|lra]. replace (Rabs h * (Rabs (cf c k) / Rabs h)) with (Rabs (cf c k)) in Hc by (field; lra). exact Hc. }
    rewrite <- Rmult_assoc. apply Rmult_le_compat_r; [apply pow_le, Rabs_pos|exact Hc']. }
  pose proof (geometric_bound M (Rabs x) n M0 Hx) as Gb. assert (Ph : 0 < Rabs h) by (apply Rabs_pos_lt; exact N).
  assert (E1 : Rabs (bsum n (fun k => cf c k * x ^ k)) = Rabs h * Rabs x ^ n).
  { replace (bsum n (fun k => cf c k * x ^ k)) with (- (h * x ^ n)) by lra. rewrite Rabs_Ropp, Rabs_mult, <- RPow_abs. reflexivity. }
  assert (Rabs h * (M * bsum n (fun k => Rabs x ^ k)) <= Rabs h * (Rabs x ^ n - 1)) by (apply Rmult_le_compat_l; lra). lra.
Qed.
Lemma cauchy_total c : (forall k, cf c k = 0) /\ cauchy_root_bound c = Err PoLeadingCoefficientZero \/ exists bound, cauchy_root_bound c = Ok bound.
Proof.
  unfold cauchy_root_bound. replace (poly_is_finite c) with true by (unfold poly_is_finite; induction c; auto). cbn [negb].
  pose proof (degree_spec c) as D. destruct (poly_degree c) as [n|]; [right|left; auto]. unfold poly_coefficient.
  assert (Ln : (n < length c)%nat) by (apply (deg_eq_lt c); [exact D|apply deg_lt_length]). rewrite (nth_error_nth' c 0 Ln). eauto.
Qed.

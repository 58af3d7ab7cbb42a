(** Rotations of columns: what they keep and what they remove. *)
From Coq Require Import ZArith Reals List Bool Arith Lia Lra Psatz.
From Verif Require Import Base.Scalar Base.RNum Base.Lists Base.Series Base.Det Model.Errors Model.Vector Model.Matrix Model.Lu Model.Svd Spec.Matrix.
From Verif Require Import Proofs.Matrix Proofs.Lu Proofs.Qr.
Import ListNotations.
Local Open Scope R_scope.

(** ** The rotation *)
Lemma tangent_spec alpha beta gamma : gamma <> 0 -> let t := rotation_tangent alpha beta gamma in
  gamma * (t * t) + (beta - alpha) * t = gamma.
Proof.
  intros G. unfold rotation_tangent. cbv zeta. rnum. set (z := (beta - alpha) / (2 * gamma)).
  assert (Z : beta - alpha = 2 * gamma * z) by (unfold z; field; auto). rewrite Z.
  assert (P : 0 < 1 + z * z) by nra. pose proof (sqrt_sqrt (1 + z * z) ltac:(lra)) as W. pose proof (sqrt_lt_R0 _ P) as W0.
  set (w := R_sqrt.sqrt (1 + z * z)) in *.
  destruct (Rltb z 0) eqn:E; rcases.
  - rewrite Rabs_left by lra. assert (U : 0 < - z + w) by lra. assert (UU : (-z + w) * (-z + w) = 1 + 2 * (- z) * (- z + w)) by nra.
    apply (Rmult_eq_reg_r ((-z + w) * (-z + w))); [|nra]. replace (- (1)) with (-1) by ring.
    replace ((gamma * (-1 / (- z + w) * (-1 / (- z + w))) + 2 * gamma * z * (-1 / (- z + w))) * ((- z + w) * (- z + w))) with (gamma * (1 + 2 * (- z) * (- z + w))) by (field; lra).
    rewrite <- UU. ring.
  - rewrite Rabs_right by lra. assert (U : 0 < z + w) by lra. assert (UU : (z + w) * (z + w) = 1 + 2 * z * (z + w)) by nra.
    apply (Rmult_eq_reg_r ((z + w) * (z + w))); [|nra].
    replace ((gamma * (1 / (z + w) * (1 / (z + w))) + 2 * gamma * z * (1 / (z + w))) * ((z + w) * (z + w))) with (gamma * (1 + 2 * z * (z + w))) by (field; lra).
    rewrite <- UU. ring.
Qed.
Lemma cosine_spec t : let c := rotation_cosine t in c * c + (c * t) * (c * t) = 1 /\ 0 < c.
Proof.
  cbv zeta. unfold rotation_cosine. rnum. assert (P : 0 < 1 + t * t) by nra. pose proof (sqrt_sqrt (1 + t * t) ltac:(lra)) as W. pose proof (sqrt_lt_R0 _ P) as W0.
  set (w := R_sqrt.sqrt (1 + t * t)) in *. split.
  - replace (1 / w * (1 / w) + 1 / w * t * (1 / w * t)) with ((1 + t * t) / (w * w)) by (field; lra). rewrite W. field. lra.
  - apply Rdiv_lt_0_compat; lra.
Qed.

(** ** Rotating two columns *)
Lemma rotate_columns_spec rows cols (m : mat R) p q c s : shape rows cols m -> (p < cols)%nat -> (q < cols)%nat -> p <> q ->
  shape rows cols (rotate_columns rows m p q c s) /\
  forall i j, (i < rows)%nat -> (j < cols)%nat -> mget (rotate_columns rows m p q c s) i j =
    if Nat.eqb j p then c * mget m i p - s * mget m i q else if Nat.eqb j q then s * mget m i p + c * mget m i q else mget m i j.
Proof.
  intros H Hp Hq N. unfold rotate_columns. rnum.
  match goal with |- shape _ _ ?r /\ _ => enough (L : shape rows cols r /\ forall i j, (i < rows)%nat -> (j < cols)%nat ->
    mget r i j = if Nat.ltb i rows then (if Nat.eqb j p then c * mget m i p - s * mget m i q else if Nat.eqb j q then s * mget m i p + c * mget m i q else mget m i j) else mget m i j) end.
  { destruct L as [L1 L2]. split; auto. intros i j Hi Hj. rewrite L2 by auto. destruct (Nat.ltb_spec i rows); [reflexivity|lia]. }
  apply (for_loop (fun k (x : mat R) => shape rows cols x /\ forall i j, (i < rows)%nat -> (j < cols)%nat ->
    mget x i j = if Nat.ltb i k then (if Nat.eqb j p then c * mget m i p - s * mget m i q else if Nat.eqb j q then s * mget m i p + c * mget m i q else mget m i j) else mget m i j)).
  - lia.
  - split; auto.
  - intros k x Hk [X1 X2]. cbv zeta. split; [apply shape_mset, shape_mset; auto|]. intros i j Hi Hj.
    rewrite (mget_mset rows cols) by (auto using shape_mset; lia). rewrite (mget_mset rows cols) by (auto; lia). rewrite !X2 by (auto; lia).
    destruct (Nat.eqb_spec i k) as [->|]; cbn [andb]; nat_case; subst; try reflexivity; lia.
Qed.

(** a sum changed in two places only *)
Lemma bsum_pair n p q f g : (p < n)%nat -> (q < n)%nat -> p <> q -> (forall k, (k < n)%nat -> k <> p -> k <> q -> f k = g k) ->
  f p + f q = g p + g q -> bsum n f = bsum n g.
Proof.
  intros Hp Hq N E S. apply Rminus_diag_uniq. rewrite <- bsum_minus.
  rewrite (bsum_ext n _ (fun k => (if Nat.eqb k p then f p - g p else 0) + (if Nat.eqb k q then f q - g q else 0))).
  - rewrite bsum_plus, !bsum_delta by auto. lra.
  - intros k Hk. destruct (Nat.eqb_spec k p), (Nat.eqb_spec k q); try lia; subst; try lra. rewrite E by auto. ring.
Qed.
Lemma bsum_exchange n p q f : (p < n)%nat -> (q < n)%nat -> bsum n (fun k => f (exchange p q k)) = bsum n f.
Proof.
  intros Hp Hq. destruct (Nat.eq_dec p q) as [->|N].
  - apply bsum_ext. intros. rewrite exchange_same. reflexivity.
  - apply (bsum_pair n p q); auto; unfold exchange.
    + intros k Hk K1 K2. nat_case; try lia; reflexivity.
    + nat_case; try lia; lra.
Qed.

(** the bilinear form of a matrix *)
Definition form (n : nat) (S : matrix) (x y : vector) : R := dot_product n x (times n S y).
Lemma form_ext n S x x' y y' : equal_vectors n x x' -> equal_vectors n y y' -> form n S x y = form n S x' y'.
Proof. intros A B. apply dot_ext; auto. intros i Hi. apply times_ext; auto. Qed.
Lemma form_ext_matrix n S S' x y : equal n n S S' -> form n S x y = form n S' x y.
Proof. intros A. apply dot_ext; [intros i Hi; reflexivity|]. intros i Hi. apply times_ext; [auto|intros j Hj; reflexivity]. Qed.
Lemma times_linear n S c d x y i : times n S (fun k => c * x k + d * y k) i = c * times n S x i + d * times n S y i.
Proof. unfold times. rewrite <- !bsum_scal, <- bsum_plus. apply bsum_ext. intros; ring. Qed.
Lemma form_linear_l n S c d x y z : form n S (fun k => c * x k + d * y k) z = c * form n S x z + d * form n S y z.
Proof. unfold form, dot_product. rewrite <- !bsum_scal, <- bsum_plus. apply bsum_ext. intros; ring. Qed.
Lemma form_linear_r n S c d x y z : form n S z (fun k => c * x k + d * y k) = c * form n S z x + d * form n S z y.
Proof.
  unfold form, dot_product. rewrite <- !bsum_scal, <- bsum_plus. apply bsum_ext. intros i Hi. rewrite times_linear. ring.
Qed.
Lemma form_unit n x y : form n unit_matrix x y = dot_product n x y.
Proof. apply dot_ext; [intros i Hi; reflexivity|]. intros i Hi. apply times_unit; auto. Qed.
Lemma form_sym n S x y : symmetric n S -> form n S x y = form n S y x.
Proof.
  intros H. unfold form, dot_product, times.
  rewrite (bsum_ext n _ (fun i => bsum n (fun k => x i * (S i k * y k)))) by (intros; rewrite bsum_scal; reflexivity).
  rewrite bsum_swap. apply bsum_ext. intros i Hi. rewrite <- bsum_scal. apply bsum_ext. intros k Hk. rewrite (H k i) by auto. unfold transposed. ring.
Qed.

(** ** What a rotation of the columns does to their forms *)
Section Rotate.
  Variables (rows cols : nat) (m : mat R) (p q : nat) (c s : R) (S : matrix).
  Hypothesis Hm : shape rows cols m.
  Hypothesis Hp : (p < cols)%nat.
  Hypothesis Hq : (q < cols)%nat.
  Hypothesis Npq : p <> q.
  Let m' := rotate_columns rows m p q c s.
  Definition rotated_column (j : nat) : vector :=
    if Nat.eqb j p then fun i => c * col m p i + (- s) * col m q i
    else if Nat.eqb j q then fun i => s * col m p i + c * col m q i else col m j.
  Lemma rotated_column_spec j : (j < cols)%nat -> equal_vectors rows (col m' j) (rotated_column j).
  Proof.
    intros Hj i Hi. unfold col, m'. destruct (rotate_columns_spec rows cols m p q c s Hm Hp Hq Npq) as [_ E]. rewrite E by auto.
    unfold rotated_column. nat_case; unfold col; subst; try ring; reflexivity.
  Qed.
  Lemma rotated_form i j : (i < cols)%nat -> (j < cols)%nat -> form rows S (col m' i) (col m' j) = form rows S (rotated_column i) (rotated_column j).
  Proof. intros Hi Hj. apply form_ext; apply rotated_column_spec; auto. Qed.
End Rotate.

(** sums of products of rows are kept *)
Lemma rotate_pairing r1 r2 cols (x y : mat R) p q c s i j : shape r1 cols x -> shape r2 cols y -> (p < cols)%nat -> (q < cols)%nat -> p <> q ->
  c * c + s * s = 1 -> (i < r1)%nat -> (j < r2)%nat ->
  bsum cols (fun k => mget (rotate_columns r1 x p q c s) i k * mget (rotate_columns r2 y p q c s) j k) = bsum cols (fun k => mget x i k * mget y j k).
Proof.
  intros Hx Hy Hp Hq N C Hi Hj. destruct (rotate_columns_spec r1 cols x p q c s Hx Hp Hq N) as [_ E1]. destruct (rotate_columns_spec r2 cols y p q c s Hy Hp Hq N) as [_ E2].
  apply (bsum_pair cols p q); auto.
  - intros k Hk K1 K2. rewrite E1, E2 by auto. nat_case; try lia; reflexivity.
  - rewrite !E1, !E2 by auto. nat_case; try lia.
    replace ((c * mget x i p - s * mget x i q) * (c * mget y j p - s * mget y j q) + (s * mget x i p + c * mget x i q) * (s * mget y j p + c * mget y j q))
      with ((c * c + s * s) * (mget x i p * mget y j p + mget x i q * mget y j q)) by ring. rewrite C. ring.
Qed.
Lemma swap_pairing r1 r2 cols (x y : mat R) p q i j : shape r1 cols x -> shape r2 cols y -> (p < cols)%nat -> (q < cols)%nat ->
  (i < r1)%nat -> (j < r2)%nat ->
  bsum cols (fun k => mget (swap_columns x p q) i k * mget (swap_columns y p q) j k) = bsum cols (fun k => mget x i k * mget y j k).
Proof.
  intros Hx Hy Hp Hq Hi Hj. rewrite <- (bsum_exchange cols p q (fun k => mget x i k * mget y j k)) by auto. apply bsum_ext. intros k Hk.
  destruct (shape_swap_columns r1 cols x p q Hx Hp Hq) as [_ E1]. destruct (shape_swap_columns r2 cols y p q Hy Hp Hq) as [_ E2].
  unfold swap_columns. rnum. rewrite E1, E2 by auto. reflexivity.
Qed.
Lemma negate_column_spec rows cols (m : mat R) k : shape rows cols m -> (k < cols)%nat ->
  shape rows cols (negate_column rows m k) /\
  forall i j, (i < rows)%nat -> (j < cols)%nat -> mget (negate_column rows m k) i j = if Nat.eqb j k then - mget m i j else mget m i j.
Proof.
  intros H Hk. destruct (column_update rows cols m 0 k (fun m i => - mget m i k) H Hk ltac:(lia)) as [E1 E2].
  - intros m' i Hi E. cbv beta. rewrite E by auto. reflexivity.
  - unfold negate_column. rnum. split; [exact E1|]. intros i j Hi Hj. rewrite E2 by auto. destruct (Nat.eqb_spec j k) as [->|]; reflexivity.
Qed.
Lemma divide_column_spec rows cols (m : mat R) k d : shape rows cols m -> (k < cols)%nat ->
  shape rows cols (divide_column rows m k d) /\
  forall i j, (i < rows)%nat -> (j < cols)%nat -> mget (divide_column rows m k d) i j = if Nat.eqb j k then mget m i j / d else mget m i j.
Proof.
  intros H Hk. destruct (column_update rows cols m 0 k (fun m i => mget m i k / d) H Hk ltac:(lia)) as [E1 E2].
  - intros m' i Hi E. cbv beta. rewrite E by auto. reflexivity.
  - unfold divide_column. rnum. split; [exact E1|]. intros i j Hi Hj. rewrite E2 by auto. destruct (Nat.eqb_spec j k) as [->|]; reflexivity.
Qed.
Lemma negate_pairing r1 r2 cols (x y : mat R) k i j : shape r1 cols x -> shape r2 cols y -> (k < cols)%nat -> (i < r1)%nat -> (j < r2)%nat ->
  bsum cols (fun l => mget (negate_column r1 x k) i l * mget (negate_column r2 y k) j l) = bsum cols (fun l => mget x i l * mget y j l).
Proof.
  intros Hx Hy Hk Hi Hj. destruct (negate_column_spec r1 cols x k Hx Hk) as [_ E1]. destruct (negate_column_spec r2 cols y k Hy Hk) as [_ E2].
  apply bsum_ext. intros l Hl. rewrite E1, E2 by auto. destruct (Nat.eqb l k); ring.
Qed.

(** lists built from columns *)
Lemma dot_list n : forall (f g : nat -> R) s, fold_left (fun sum (ab : R * R) => sum + fst ab * snd ab) (combine (map f (seq s n)) (map g (seq s n))) 0 =
  bsum n (fun k => f (s + k)%nat * g (s + k)%nat).
Proof.
  assert (G : forall n (f g : nat -> R) s acc, fold_left (fun sum (ab : R * R) => sum + fst ab * snd ab) (combine (map f (seq s n)) (map g (seq s n))) acc = acc + bsum n (fun k => f (s + k)%nat * g (s + k)%nat)).
  { induction n0 as [|n0 IH]; intros f g s acc; [cbn; ring|]. cbn [seq map combine fold_left fst snd]. rewrite IH, bsum_first. rewrite Nat.add_0_r.
    rewrite (bsum_ext n0 _ (fun i => f (s + S i)%nat * g (s + S i)%nat)); [ring|]. intros i Hi. replace (S s + i)%nat with (s + S i)%nat by lia. reflexivity. }
  intros f g s. rewrite G. ring.
Qed.
Lemma dot_columns rows (m m' : mat R) p q : dot (column_of rows m p) (column_of rows m' q) = dot_product rows (col m p) (col m' q).
Proof. unfold dot, column_of, from_fn. rnum. rewrite dot_list. reflexivity. Qed.
Lemma norm_squared_column rows (m : mat R) p : norm_squared (column_of rows m p) = square_norm rows (col m p).
Proof. apply dot_columns. Qed.
Lemma square_norm_nonneg n x : 0 <= square_norm n x.
Proof. apply bsum_nonneg. intros. nra. Qed.
Lemma square_norm_zero n x : square_norm n x = 0 -> forall i, (i < n)%nat -> x i = 0.
Proof. intros H i Hi. assert (x i * x i = 0) by (apply (bsum_zero_terms n (fun k => x k * x k)); auto; intros; nra). nra. Qed.

Lemma rotate_orthonormal rows cols (m : mat R) p q c s : shape rows cols m -> (p < cols)%nat -> (q < cols)%nat -> p <> q ->
  c * c + s * s = 1 -> orthonormal_columns rows cols (mget m) -> orthonormal_columns rows cols (mget (rotate_columns rows m p q c s)).
Proof.
  intros H Hp Hq N C O i j Hi Hj. change (dot_product rows (col (rotate_columns rows m p q c s) i) (col (rotate_columns rows m p q c s) j) = if Nat.eqb i j then 1 else 0).
  rewrite <- form_unit, (rotated_form rows cols m p q c s unit_matrix H Hp Hq N i j Hi Hj). unfold rotated_column.
  assert (D : forall a b, (a < cols)%nat -> (b < cols)%nat -> form rows unit_matrix (col m a) (col m b) = if Nat.eqb a b then 1 else 0)
    by (intros; rewrite form_unit; apply O; auto).
  destruct (Nat.eqb_spec i p) as [Ei|Ei]; [|destruct (Nat.eqb_spec i q) as [Fi|Fi]]; (destruct (Nat.eqb_spec j p) as [Ej|Ej]; [|destruct (Nat.eqb_spec j q) as [Fj|Fj]]);
  rewrite ?form_linear_l, ?form_linear_r, ?D by auto; nat_case; subst; try lia; try lra; try ring.
Qed.

(** ** The sweeps *)
Section Sweeps.
  Variables (rows cols : nat) (A : matrix).
  Definition kept (L V : mat R) : Prop :=
    shape rows cols L /\ shape cols cols V /\
    (forall i j, (i < rows)%nat -> (j < cols)%nat -> bsum cols (fun k => mget L i k * mget V j k) = A i j) /\
    (forall i j, (i < cols)%nat -> (j < cols)%nat -> bsum cols (fun k => mget V i k * mget V j k) = if Nat.eqb i j then 1 else 0) /\
    orthonormal_columns cols cols (mget V).
  Lemma kept_rotate L V p q c s : (p < cols)%nat -> (q < cols)%nat -> p <> q -> c * c + s * s = 1 -> kept L V ->
    kept (rotate_columns rows L p q c s) (rotate_columns cols V p q c s).
  Proof.
    intros Hp Hq N C (K1 & K2 & K3 & K4 & K5). split; [|split; [|split; [|split]]].
    - apply rotate_columns_spec; auto.
    - apply rotate_columns_spec; auto.
    - intros i j Hi Hj. rewrite (rotate_pairing rows cols cols) by auto. auto.
    - intros i j Hi Hj. rewrite (rotate_pairing cols cols cols) by auto. auto.
    - apply rotate_orthonormal; auto.
  Qed.
  (** the scaled overlap of two columns *)
  Definition overlaps (L : mat R) (p q : nat) : Prop :=
    Rabs (dot_product rows (col L p) (col L q)) <= epsilon * R_sqrt.sqrt (square_norm rows (col L p) * square_norm rows (col L q)).
  Lemma pair_kept p q s : (p < q < cols)%nat -> kept (sw_left s) (sw_right s) ->
    kept (sw_left (svd_pair rows cols p s q)) (sw_right (svd_pair rows cols p s q)).
  Proof.
    intros H K. unfold svd_pair. rewrite !norm_squared_column, dot_columns. rnum. cbv zeta. destruct (_ || _); [exact K|].
    destruct (Rleb (Rabs _) _); [exact K|]. cbn [sw_left sw_right]. apply kept_rotate; auto; try lia.
    match goal with |- rotation_cosine ?t * _ + _ = _ => exact (proj1 (cosine_spec t)) end.
  Qed.
  Lemma sweep_kept L V : kept L V -> kept (sw_left (svd_sweep rows cols L V)) (sw_right (svd_sweep rows cols L V)).
  Proof.
    intros K. unfold svd_sweep. apply (for_loop (fun _ s => kept (sw_left s) (sw_right s))); [lia|exact K|].
    intros p s Hp Ks. apply (for_loop (fun _ s => kept (sw_left s) (sw_right s))); [lia|exact Ks|].
    intros q s' Hq Ks'. apply pair_kept; auto; lia.
  Qed.
  (** one pair: the measure does not shrink, and while it is small nothing is rotated *)
  Lemma pair_off p q s : sw_off s <= sw_off (svd_pair rows cols p s q) /\
    (0 <= sw_off s -> sw_off (svd_pair rows cols p s q) <= epsilon ->
      sw_left (svd_pair rows cols p s q) = sw_left s /\ sw_right (svd_pair rows cols p s q) = sw_right s /\ overlaps (sw_left s) p q).
  Proof.
    unfold svd_pair, overlaps. rewrite !norm_squared_column, dot_columns.
    set (al := square_norm rows (col (sw_left s) p)). set (be := square_norm rows (col (sw_left s) q)). set (ga := dot_product rows _ _).
    assert (A0 : 0 <= al) by apply square_norm_nonneg. assert (B0 : 0 <= be) by apply square_norm_nonneg.
    assert (E0 : 0 < epsilon (Num := Rnum)) by (rnum; apply Rinv_0_lt_compat, IZR_lt; lia).
    assert (ZA : al = 0 -> ga = 0).
    { intros Z. unfold ga, dot_product. rewrite (bsum_ext rows _ (fun _ => 0)); [apply bsum_0|]. intros i Hi. rewrite (square_norm_zero rows _ Z i Hi). ring. }
    assert (ZB : be = 0 -> ga = 0).
    { intros Z. unfold ga, dot_product. rewrite (bsum_ext rows _ (fun _ => 0)); [apply bsum_0|]. intros i Hi. rewrite (square_norm_zero rows _ Z i Hi). ring. }
    cbv zeta. change (eqb al zero) with (Reqb al 0). change (eqb be zero) with (Reqb be 0).
    destruct (Reqb al 0) eqn:ZA'; cbn [orb]; [|destruct (Reqb be 0) eqn:ZB'; cbn [orb]]; rcases.
    - split; [lra|]. intros _ _. split; auto. split; auto. rewrite ZA by auto. rewrite Rabs_R0. apply Rmult_le_pos; [lra|apply sqrt_pos].
    - split; [lra|]. intros _ _. split; auto. split; auto. rewrite ZB by auto. rewrite Rabs_R0. apply Rmult_le_pos; [lra|apply sqrt_pos].
    - assert (SP : 0 < R_sqrt.sqrt (al * be)) by (apply sqrt_lt_R0; nra).
      set (sc := R_sqrt.sqrt (al * be)) in *. change (sqrt (mul al be)) with sc. change (abs ga) with (Rabs ga).
      change (div (Rabs ga) sc) with (Rabs ga / sc). change (ltb (sw_off s) (Rabs ga / sc)) with (Rltb (sw_off s) (Rabs ga / sc)).
      change (leb (Rabs ga) (mul epsilon sc)) with (Rleb (Rabs ga) (epsilon * sc)).
      set (om := if Rltb (sw_off s) (Rabs ga / sc) then Rabs ga / sc else sw_off s).
      assert (O1 : sw_off s <= om /\ Rabs ga / sc <= om) by (unfold om; destruct (Rltb _ _) eqn:E; rcases; split; lra).
      destruct (Rleb (Rabs ga) (epsilon * sc)) eqn:E; rcases; cbn [sw_off sw_left sw_right]; (split; [lra|]).
      + intros _ _. auto.
      + intros _ Q. exfalso. assert (Rabs ga / sc <= epsilon) by lra.
        assert (Rabs ga <= epsilon * sc) by (apply (Rmult_le_reg_r (/ sc)); [apply Rinv_0_lt_compat; auto|]; replace (epsilon * sc * / sc) with (epsilon (Num := Rnum)) by (field; lra); auto).
        lra.
  Qed.
  Lemma sweep_off L V : sw_off (svd_sweep rows cols L V) <= epsilon ->
    sw_left (svd_sweep rows cols L V) = L /\ sw_right (svd_sweep rows cols L V) = V /\ forall p q, (p < q < cols)%nat -> overlaps L p q.
  Proof.
    set (P := fun (b : nat -> nat -> Prop) (s : sweep) => 0 <= sw_off s /\ (sw_off s <= epsilon -> sw_left s = L /\ sw_right s = V /\ forall p q, (p < q < cols)%nat -> b p q -> overlaps L p q)).
    enough (G : P (fun p q => (p < cols)%nat) (svd_sweep rows cols L V)).
    { destruct G as [_ G]. intros H. destruct (G H) as (G1 & G2 & G3). split; auto. split; auto. intros p q Hpq. apply G3; auto. lia. }
    unfold svd_sweep. apply (for_loop (fun k s => P (fun p q => (p < k)%nat) s)).
    - lia.
    - split; [cbn [sw_off]; rnum; lra|]. intros _. split; auto. split; auto. intros; lia.
    - intros k s Hk Ps. destruct (Nat.le_gt_cases cols (k + 1)) as [Hc|Hc].
      { rewrite range_nil by lia. cbn [fold_left]. destruct Ps as [P1 P2]. split; auto. intros H. destruct (P2 H) as (Q1 & Q2 & Q3). split; auto. split; auto.
        intros p q Hpq Hp. apply Q3; auto. lia. }
      enough (G : P (fun p q => (p < k)%nat \/ (p = k /\ (q < cols)%nat)) (fold_left (svd_pair rows cols k) (range (k + 1) cols) s)).
      { destruct G as [G1 G2]. split; auto. intros H. destruct (G2 H) as (Q1 & Q2 & Q3). split; auto. split; auto. intros p q Hpq Hp. apply Q3; auto. lia. }
      apply (for_loop (fun l s => P (fun p q => (p < k)%nat \/ (p = k /\ (q < l)%nat)) s)).
      + lia.
      + destruct Ps as [P1 P2]. split; auto. intros H. destruct (P2 H) as (Q1 & Q2 & Q3). split; auto. split; auto. intros p q Hpq [Hp|[Hp Hq]]; [apply Q3; auto|lia].
      + intros l s' Hl [P1 P2]. destruct (pair_off k l s') as [O1 O2]. split; [lra|]. intros H. destruct P2 as (Q1 & Q2 & Q3); [lra|].
        destruct (O2 P1 H) as (R1 & R2 & R3). rewrite R1, R2. split; auto. split; auto. intros p q Hpq [Hp|[-> Hq]]; [apply Q3; auto|].
        destruct (Nat.eq_dec q l) as [->|]; [rewrite <- Q1; auto|apply Q3; auto; right; split; auto; lia].
  Qed.
  Lemma sweeps_kept k : forall L V, kept L V -> let '(L', V', settled) := svd_sweeps rows cols k L V in
    kept L' V' /\ (settled = true -> forall p q, (p < q < cols)%nat -> overlaps L' p q).
  Proof.
    induction k as [|k IH]; intros L V K; cbn [svd_sweeps]; [split; auto; discriminate|].
    change (leb (sw_off (svd_sweep rows cols L V)) epsilon) with (Rleb (sw_off (svd_sweep rows cols L V)) epsilon).
    pose proof (sweep_kept L V K) as K'. destruct (Rleb _ _) eqn:E; rcases.
    - split; auto. intros _. destruct (sweep_off L V E) as (E1 & E2 & E3). rewrite E1. exact E3.
    - apply IH. exact K'.
  Qed.
End Sweeps.

(** ** The lengths of the columns *)
Lemma lengths_spec rows cols (L : mat R) : shape rows cols L ->
  let '(U, sigma) := svd_lengths rows cols L in
  shape rows cols U /\ length sigma = cols /\
  forall k, (k < cols)%nat -> vget sigma k = R_sqrt.sqrt (square_norm rows (col L k)) /\
    (vget sigma k = 0 -> forall i, (i < rows)%nat -> mget U i k = 0) /\ (0 < vget sigma k -> forall i, (i < rows)%nat -> mget U i k = mget L i k / vget sigma k).
Proof.
  intros H. unfold svd_lengths.
  set (f := fun st k => _).
  assert (G : forall st, st = fold_left f (range 0 cols) (L, vec_zeros cols) -> shape rows cols (fst st) /\ length (snd st) = cols /\
    (forall k, (k < cols)%nat -> vget (snd st) k = R_sqrt.sqrt (square_norm rows (col L k)) /\
    (vget (snd st) k = 0 -> forall i, (i < rows)%nat -> mget (fst st) i k = 0) /\ (0 < vget (snd st) k -> forall i, (i < rows)%nat -> mget (fst st) i k = mget L i k / vget (snd st) k))).
  2:{ specialize (G _ eq_refl). destruct (fold_left f _ _) as [U sigma]. cbn [fst snd] in G. destruct G as (G1 & G2 & G3). auto. }
  intros st ->.
  match goal with |- shape _ _ (fst ?r) /\ _ => enough (G : shape rows cols (fst r) /\ length (snd r) = cols /\
    (forall k, (k < cols)%nat -> vget (snd r) k = R_sqrt.sqrt (square_norm rows (col L k)) /\
    (vget (snd r) k = 0 -> forall i, (i < rows)%nat -> mget (fst r) i k = 0) /\ (0 < vget (snd r) k -> forall i, (i < rows)%nat -> mget (fst r) i k = mget L i k / vget (snd r) k)) /\
    (forall i k, (i < rows)%nat -> (cols <= k < cols)%nat -> mget (fst r) i k = mget L i k)) by tauto end.
  apply (for_loop (fun l (st : mat R * list R) => shape rows cols (fst st) /\ length (snd st) = cols /\
    (forall k, (k < l)%nat -> vget (snd st) k = R_sqrt.sqrt (square_norm rows (col L k)) /\
    (vget (snd st) k = 0 -> forall i, (i < rows)%nat -> mget (fst st) i k = 0) /\ (0 < vget (snd st) k -> forall i, (i < rows)%nat -> mget (fst st) i k = mget L i k / vget (snd st) k)) /\
    (forall i k, (i < rows)%nat -> (l <= k < cols)%nat -> mget (fst st) i k = mget L i k))).
  - lia.
  - cbn [fst snd]. split; auto. split; [apply repeat_length|]. split; [intros; lia|auto].
  - intros l [U sigma] Hl (G1 & G2 & G3 & G4). cbn [fst snd] in *. unfold f. cbv beta iota zeta. unfold norm. rewrite norm_squared_column. rnum.
    assert (NE : square_norm rows (col U l) = square_norm rows (col L l)).
    { unfold square_norm, dot_product. apply bsum_ext. intros i Hi. unfold col. rewrite G4 by (auto; lia). reflexivity. }
    rewrite NE. set (sg := R_sqrt.sqrt (square_norm rows (col L l))).
    assert (SG : 0 <= sg) by apply sqrt_pos. destruct (divide_column_spec rows cols U l sg G1 ltac:(lia)) as [D1 D2].
    assert (VG : forall k, (k < cols)%nat -> vget (set_nth sigma l sg) k = if Nat.eqb k l then sg else vget sigma k) by (intros; apply vget_set'; lia).
    assert (Z : sg = 0 -> forall i, (i < rows)%nat -> mget L i l = 0).
    { intros Z i Hi. assert (square_norm rows (col L l) = 0) by (apply sqrt_eq_0; auto; apply square_norm_nonneg). apply (square_norm_zero rows (col L l)); auto. }
    cbn [fst snd]. split; [destruct (Rltb 0 sg); auto|]. split; [rewrite set_nth_length; auto|]. split.
    + intros k Hk. rewrite VG by lia. destruct (Nat.eqb_spec k l) as [->|Nk].
      * split; [reflexivity|]. split; intros S i Hi; destruct (Rltb 0 sg) eqn:E; rcases; try lra.
        -- rewrite G4 by (auto; lia). auto.
        -- rewrite D2 by (auto; lia). rewrite Nat.eqb_refl, G4 by (auto; lia). reflexivity.
      * destruct (G3 k ltac:(lia)) as (H1 & H2 & H3). split; auto.
        split; intros S i Hi; (destruct (Rltb 0 sg); [rewrite D2 by (auto; lia); destruct (Nat.eqb_spec k l); [lia|]|]); auto.
    + intros i k Hi Hk. destruct (Rltb 0 sg); [rewrite D2 by (auto; lia); destruct (Nat.eqb_spec k l); [lia|]|]; apply G4; auto; lia.
Qed.

(** ** Sorting *)
Lemma top_value_spec n k (v : list R) : (k < n)%nat -> (k <= top_value n k v < n)%nat /\ forall j, (k <= j < n)%nat -> vget v j <= vget v (top_value n k v).
Proof.
  intros Hk. unfold top_value. rnum.
  apply (for_loop (fun l t => (k <= t < n)%nat /\ forall j, (k <= j < l)%nat -> vget v j <= vget v t)).
  - lia.
  - split; [lia|]. intros j Hj. replace j with k by lia. lra.
  - intros i t Hi [T1 T2]. destruct (Rltb (vget v t) (vget v i)) eqn:E; rcases.
    + split; [lia|]. intros j Hj. destruct (Nat.eq_dec j i) as [->|]; [lra|]. specialize (T2 j ltac:(lia)). lra.
    + split; [lia|]. intros j Hj. destruct (Nat.eq_dec j i) as [->|]; [lra|]. apply T2. lia.
Qed.
Lemma vget_swap (v : list R) p q k : (p < length v)%nat -> (q < length v)%nat -> vget (swap 0 v p q) k = vget v (exchange p q k).
Proof. intros Hp Hq. unfold vget. change (@zero R Rnum) with 0. apply nth_swap; auto. Qed.
Lemma swap_columns_spec rows cols (m : mat R) p q : shape rows cols m -> (p < cols)%nat -> (q < cols)%nat ->
  shape rows cols (swap_columns m p q) /\ forall i j, (i < rows)%nat -> (j < cols)%nat -> mget (swap_columns m p q) i j = mget m i (exchange p q j).
Proof. exact (shape_swap_columns rows cols m p q). Qed.
Lemma exchange_inj p q i j : exchange p q i = exchange p q j -> i = j.
Proof. intros H. rewrite <- (exchange_exchange p q i), <- (exchange_exchange p q j), H. reflexivity. Qed.

Section Triple.
  Variables (rows cols : nat) (A : matrix) (small : Prop) (eps : R).
  (** what a triple of left columns, values and right columns keeps through sorting and changing signs *)
  Definition triple (U : mat R) (sigma : list R) (V : mat R) : Prop :=
    shape rows cols U /\ shape cols cols V /\ length sigma = cols /\
    (forall i j, (i < rows)%nat -> (j < cols)%nat -> bsum cols (fun k => mget U i k * vget sigma k * mget V j k) = A i j) /\
    (forall i j, (i < cols)%nat -> (j < cols)%nat -> bsum cols (fun k => mget V i k * mget V j k) = if Nat.eqb i j then 1 else 0) /\
    orthonormal_columns cols cols (mget V) /\
    (forall k, (k < cols)%nat -> 0 <= vget sigma k /\ (vget sigma k = 0 -> forall i, (i < rows)%nat -> mget U i k = 0) /\ (0 < vget sigma k -> square_norm rows (col U k) = 1)) /\
    (small -> forall p q, (p < cols)%nat -> (q < cols)%nat -> p <> q -> Rabs (dot_product rows (col U p) (col U q)) <= eps).
  Lemma triple_swap U sigma V p q : (p < cols)%nat -> (q < cols)%nat -> triple U sigma V -> triple (swap_columns U p q) (swap 0 sigma p q) (swap_columns V p q).
  Proof.
    intros Hp Hq (T1 & T2 & T3 & T4 & T5 & T6 & T7 & T8). destruct (swap_columns_spec rows cols U p q T1 Hp Hq) as [U1 U2]. destruct (swap_columns_spec cols cols V p q T2 Hp Hq) as [V1 V2].
    assert (X : forall k, (k < cols)%nat -> (exchange p q k < cols)%nat) by (intros; apply exchange_lt; auto).
    assert (S : forall k, vget (swap 0 sigma p q) k = vget sigma (exchange p q k)) by (intros; apply vget_swap; lia).
    assert (CU : forall k, (k < cols)%nat -> equal_vectors rows (col (swap_columns U p q) k) (col U (exchange p q k))) by (intros k Hk i Hi; apply U2; auto).
    split; auto. split; auto. split; [rewrite swap_length; auto|]. split; [|split; [|split; [|split]]].
    - intros i j Hi Hj. rewrite <- (T4 i j Hi Hj). rewrite <- (bsum_exchange cols p q (fun k => mget U i k * vget sigma k * mget V j k)) by auto.
      apply bsum_ext. intros k Hk. rewrite U2, V2, S by auto. reflexivity.
    - intros i j Hi Hj. rewrite <- (T5 i j Hi Hj). apply swap_pairing with (r1 := cols) (r2 := cols); auto.
    - intros i j Hi Hj. rewrite (dot_ext cols _ (column (mget V) (exchange p q i)) _ (column (mget V) (exchange p q j))) by (intros r Hr; apply V2; auto).
      rewrite T6 by auto. destruct (Nat.eqb_spec i j) as [->|N]; [rewrite Nat.eqb_refl; reflexivity|].
      destruct (Nat.eqb_spec (exchange p q i) (exchange p q j)) as [E|]; [apply exchange_inj in E; lia|reflexivity].
    - intros k Hk. rewrite S. destruct (T7 (exchange p q k)) as (H1 & H2 & H3); auto. split; auto. split.
      + intros Z i Hi. rewrite U2 by auto. auto.
      + intros Z. rewrite <- (H3 Z). unfold square_norm. apply dot_ext; apply CU; auto.
    - intros Sm a b Ha Hb N. rewrite (dot_ext rows _ (col U (exchange p q a)) _ (col U (exchange p q b))) by (apply CU; auto). apply T8; auto.
      intros E. apply exchange_inj in E. auto.
  Qed.
  Lemma triple_negate U sigma V k : (k < cols)%nat -> triple U sigma V -> triple (negate_column rows U k) sigma (negate_column cols V k).
  Proof.
    intros Hk (T1 & T2 & T3 & T4 & T5 & T6 & T7 & T8). destruct (negate_column_spec rows cols U k T1 Hk) as [U1 U2]. destruct (negate_column_spec cols cols V k T2 Hk) as [V1 V2].
    set (sg := fun j : nat => if Nat.eqb j k then -1 else 1).
    assert (SS : forall j, sg j * sg j = 1) by (intros; unfold sg; destruct (Nat.eqb j k); ring).
    assert (SA : forall j, Rabs (sg j) = 1) by (intros; unfold sg; destruct (Nat.eqb j k); [rewrite Rabs_left; lra|apply Rabs_R1]).
    assert (UE : forall i j, (i < rows)%nat -> (j < cols)%nat -> mget (negate_column rows U k) i j = sg j * mget U i j) by (intros; rewrite U2 by auto; unfold sg; destruct (Nat.eqb j k); ring).
    assert (VE : forall i j, (i < cols)%nat -> (j < cols)%nat -> mget (negate_column cols V k) i j = sg j * mget V i j) by (intros; rewrite V2 by auto; unfold sg; destruct (Nat.eqb j k); ring).
    assert (DU : forall a b, (a < cols)%nat -> (b < cols)%nat -> dot_product rows (col (negate_column rows U k) a) (col (negate_column rows U k) b) = sg a * sg b * dot_product rows (col U a) (col U b)).
    { intros a b Ha Hb. unfold dot_product. rewrite <- bsum_scal. apply bsum_ext. intros i Hi. unfold col. rewrite !UE by auto. ring. }
    split; auto. split; auto. split; auto. split; [|split; [|split; [|split]]].
    - intros i j Hi Hj. rewrite <- (T4 i j Hi Hj). apply bsum_ext. intros l Hl. rewrite UE, VE by auto.
      replace (sg l * mget U i l * vget sigma l * (sg l * mget V j l)) with (sg l * sg l * (mget U i l * vget sigma l * mget V j l)) by ring. rewrite SS. ring.
    - intros i j Hi Hj. rewrite <- (T5 i j Hi Hj). apply bsum_ext. intros l Hl. rewrite !VE by auto.
      replace (sg l * mget V i l * (sg l * mget V j l)) with (sg l * sg l * (mget V i l * mget V j l)) by ring. rewrite SS. ring.
    - intros i j Hi Hj. transitivity (sg i * sg j * dot_product cols (column (mget V) i) (column (mget V) j)).
      + unfold dot_product. rewrite <- bsum_scal. apply bsum_ext. intros r Hr. unfold column. rewrite !VE by auto. ring.
      + rewrite T6 by auto. destruct (Nat.eqb_spec i j) as [->|]; [rewrite SS|]; ring.
    - intros l Hl. destruct (T7 l Hl) as (H1 & H2 & H3). split; auto. split.
      + intros Z i Hi. rewrite UE by auto. rewrite H2 by auto. ring.
      + intros Z. unfold square_norm. rewrite DU, SS by auto. fold (square_norm rows (col U l)). rewrite H3 by auto. ring.
    - intros Sm a b Ha Hb N. rewrite DU by auto. rewrite !Rabs_mult, !SA, !Rmult_1_l. auto.
  Qed.
  Definition ordered (k : nat) (sigma : list R) : Prop := forall i j, (i < k)%nat -> (i <= j < cols)%nat -> vget sigma j <= vget sigma i.
  Lemma ordered_swap sigma k t : length sigma = cols -> (k <= t < cols)%nat -> ordered k sigma -> (forall j, (k <= j < cols)%nat -> vget sigma j <= vget sigma t) ->
    ordered (S k) (swap 0 sigma k t).
  Proof.
    intros HL Ht O M i j Hi Hj. rewrite !vget_swap by lia. destruct (Nat.eq_dec i k) as [->|Ni].
    - replace (exchange k t k) with t by (unfold exchange; rewrite Nat.eqb_refl; reflexivity). apply M. unfold exchange. nat_case; lia.
    - replace (exchange k t i) with i by (unfold exchange; nat_case; lia). apply O; [lia|]. unfold exchange. nat_case; lia.
  Qed.
  Lemma ordered_keep sigma k t : ordered k sigma -> t = k -> (forall j, (k <= j < cols)%nat -> vget sigma j <= vget sigma t) -> ordered (S k) sigma.
  Proof. intros O -> M i j Hi Hj. destruct (Nat.eq_dec i k) as [->|Ni]; [apply M; lia|apply O; lia]. Qed.
  Lemma sorted_spec U sigma V : triple U sigma V -> let '(U', sigma', V') := fold_left (svd_sort_step cols) (range 0 cols) (U, sigma, V) in
    triple U' sigma' V' /\ ordered cols sigma'.
  Proof.
    intros T. assert (G : let st := fold_left (svd_sort_step cols) (range 0 cols) (U, sigma, V) in triple (fst (fst st)) (snd (fst st)) (snd st) /\ ordered cols (snd (fst st))).
    { cbv zeta. apply (for_loop (fun k st => triple (fst (fst st)) (snd (fst st)) (snd st) /\ ordered k (snd (fst st)))).
      - lia.
      - split; auto. intros i j Hi. lia.
      - intros k [[U1 s1] V1] Hk [P1 P2]. cbn [fst snd] in *. unfold svd_sort_step. destruct (top_value_spec cols k s1) as [Q1 Q2]; [lia|].
        destruct (Nat.eqb_spec (top_value cols k s1) k) as [E|E]; cbn [negb fst snd].
        + split; auto. apply (ordered_keep s1 k (top_value cols k s1)); auto.
        + split; [apply triple_swap; auto; lia|]. apply ordered_swap; auto. apply P1. }
    destruct (fold_left _ _ _) as [[U' s'] V']. exact G.
  Qed.
  Lemma largest_row_spec (m : mat R) k : (0 < rows)%nat -> (largest_row rows m k < rows)%nat /\ forall i, (i < rows)%nat -> Rabs (mget m i k) <= Rabs (mget m (largest_row rows m k) k).
  Proof.
    intros Hr. unfold largest_row. rnum.
    match goal with |- (fst ?r < _)%nat /\ _ => set (st := r); assert (G : (fst st < rows)%nat /\ 0 <= snd st <= Rabs (mget m (fst st) k) /\ forall i, (i < rows)%nat -> Rabs (mget m i k) <= snd st) end.
    { unfold st. apply (for_loop (fun l (st : nat * R) => (fst st < rows)%nat /\ 0 <= snd st <= Rabs (mget m (fst st) k) /\ forall i, (i < l)%nat -> Rabs (mget m i k) <= snd st)).
      - lia.
      - cbn [fst snd]. split; [auto|]. split; [split; [lra|apply Rabs_pos]|]. intros; lia.
      - intros l [row best] Hl (H1 & H2 & H3). cbn [fst snd] in *. destruct (Rltb best (Rabs (mget m l k))) eqn:E; rcases; cbn [fst snd].
        + split; [lia|]. split; [split; [apply Rabs_pos|lra]|]. intros i Hi. destruct (Nat.eq_dec i l) as [->|]; [lra|]. specialize (H3 i ltac:(lia)). lra.
        + split; [lia|]. split; [auto|]. intros i Hi. destruct (Nat.eq_dec i l) as [->|]; [lra|]. apply H3. lia. }
    destruct G as (G1 & G2 & G3). split; auto. intros i Hi. specialize (G3 i Hi). lra.
  Qed.
  Definition positive_peak (m : mat R) (k : nat) : Prop := (0 < rows)%nat -> exists r, (r < rows)%nat /\ forall i, (i < rows)%nat -> Rabs (mget m i k) <= mget m r k.
  Lemma signed_spec U sigma V : triple U sigma V -> let '(U', V') := fold_left (svd_sign_step rows cols) (range 0 cols) (U, V) in
    triple U' sigma V' /\ forall k, (k < cols)%nat -> positive_peak U' k.
  Proof.
    intros T. assert (G : let st := fold_left (svd_sign_step rows cols) (range 0 cols) (U, V) in triple (fst st) sigma (snd st) /\ forall k, (k < cols)%nat -> positive_peak (fst st) k).
    { cbv zeta. apply (for_loop (fun l st => triple (fst st) sigma (snd st) /\ forall k, (k < l)%nat -> positive_peak (fst st) k)).
      - lia.
      - split; auto. intros; lia.
      - intros k [U1 V1] Hk [P1 P2]. cbn [fst snd] in *. unfold svd_sign_step. rnum.
        assert (S1 : shape rows cols U1) by apply P1. destruct (negate_column_spec rows cols U1 k S1 ltac:(lia)) as [_ NE].
        destruct (Rltb (mget U1 (largest_row rows U1 k) k) 0) eqn:E; rcases; cbn [fst snd].
        + split; [apply triple_negate; auto; lia|]. intros j Hj Hr. destruct (Nat.eq_dec j k) as [->|Nj].
          * destruct (largest_row_spec U1 k Hr) as [L1 L2]. exists (largest_row rows U1 k). split; auto. intros i Hi. rewrite !NE by (auto; lia). rewrite Nat.eqb_refl, Rabs_Ropp.
            specialize (L2 i Hi). rewrite (Rabs_left (mget U1 (largest_row rows U1 k) k)) in L2 by auto. exact L2.
          * destruct (P2 j ltac:(lia) Hr) as (r & R1 & R2). exists r. split; auto. intros i Hi. rewrite !NE by (auto; lia). destruct (Nat.eqb_spec j k); [lia|]. auto.
        + split; auto. intros j Hj Hr. destruct (Nat.eq_dec j k) as [->|Nj]; [|apply P2; auto; lia].
          destruct (largest_row_spec U1 k Hr) as [L1 L2]. exists (largest_row rows U1 k). split; auto. intros i Hi. specialize (L2 i Hi).
          rewrite (Rabs_right (mget U1 (largest_row rows U1 k) k)) in L2 by lra. exact L2. }
    destruct (fold_left _ _ _) as [U' V']. exact G.
  Qed.
End Triple.

(** ** The decomposition *)
Lemma identity_kept rows cols (m : mat R) : shape rows cols m -> kept rows cols (mget m) m (identity cols).
Proof.
  intros H. assert (I : forall i j, (i < cols)%nat -> (j < cols)%nat -> mget (identity cols) i j = if Nat.eqb i j then 1 else 0) by (intros; rewrite mget_identity by auto; reflexivity).
  split; auto. split; [apply shape_identity|]. split; [|split].
  - intros i j Hi Hj. rewrite (bsum_ext cols _ (fun k => if Nat.eqb k j then mget m i j else 0)); [apply bsum_delta; auto|].
    intros k Hk. rewrite I by auto. rewrite (Nat.eqb_sym j k). destruct (Nat.eqb_spec k j) as [->|]; ring.
  - intros i j Hi Hj. rewrite (bsum_ext cols _ (fun k => if Nat.eqb k j then (if Nat.eqb i j then 1 else 0) else 0)); [apply bsum_delta; auto|].
    intros k Hk. rewrite !I by auto. rewrite (Nat.eqb_sym j k). destruct (Nat.eqb_spec k j) as [->|]; ring.
  - intros i j Hi Hj. unfold dot_product, column. rewrite (bsum_ext cols _ (fun k => if Nat.eqb k j then (if Nat.eqb i j then 1 else 0) else 0)); [apply bsum_delta; auto|].
    intros k Hk. rewrite !I by auto. destruct (Nat.eqb_spec k j) as [->|]; [rewrite Nat.eqb_sym; ring|ring].
Qed.
Definition overlap_at_most (eps : R) rows (L : mat R) (p q : nat) : Prop :=
  Rabs (dot_product rows (col L p) (col L q)) <= eps * R_sqrt.sqrt (square_norm rows (col L p) * square_norm rows (col L q)).
Lemma lengths_triple rows cols A (small : Prop) eps L V : 0 <= eps -> kept rows cols A L V -> (small -> forall p q, (p < q < cols)%nat -> overlap_at_most eps rows L p q) ->
  let '(U, sigma) := svd_lengths rows cols L in triple rows cols A small eps U sigma V.
Proof.
  intros E0 (K1 & K2 & K3 & K4 & K5) O. pose proof (lengths_spec rows cols L K1) as H. destruct (svd_lengths rows cols L) as [U sigma]. destruct H as (H1 & H2 & H3).
  assert (POS : forall k, (k < cols)%nat -> 0 <= vget sigma k) by (intros k Hk; destruct (H3 k Hk) as (E & _); rewrite E; apply sqrt_pos).
  assert (LZ : forall k i, (k < cols)%nat -> (i < rows)%nat -> vget sigma k = 0 -> mget L i k = 0).
  { intros k i Hk Hi Z. destruct (H3 k Hk) as (E & _). rewrite Z in E. symmetry in E. apply sqrt_eq_0 in E; [|apply square_norm_nonneg]. apply (square_norm_zero rows (col L k)); auto. }
  assert (UL : forall k i, (k < cols)%nat -> (i < rows)%nat -> mget U i k * vget sigma k = mget L i k).
  { intros k i Hk Hi. destruct (H3 k Hk) as (E & E1 & E2). destruct (POS k Hk) as [P|P]; [rewrite E2 by auto; field; lra|].
    symmetry in P. rewrite (LZ k i Hk Hi P), P. ring. }
  split; auto. split; auto. split; auto. split; [|split; [|split; [|split]]]; auto.
  - intros i j Hi Hj. rewrite <- (K3 i j Hi Hj). apply bsum_ext. intros k Hk. rewrite UL by auto. reflexivity.
  - intros k Hk. destruct (H3 k Hk) as (E & E1 & E2). split; auto. split; auto. intros P.
    assert (Q : square_norm rows (col L k) = vget sigma k * vget sigma k) by (rewrite E; symmetry; apply sqrt_sqrt, square_norm_nonneg).
    unfold square_norm, dot_product. rewrite (bsum_ext rows _ (fun i => / (vget sigma k * vget sigma k) * (col L k i * col L k i))).
    + rewrite bsum_scal. fold (dot_product rows (col L k) (col L k)). fold (square_norm rows (col L k)). rewrite Q. field. lra.
    + intros i Hi. unfold col. rewrite E2 by auto. field. lra.
  - intros Sm. assert (G : forall p q, (p < q < cols)%nat -> Rabs (dot_product rows (col U p) (col U q)) <= eps).
    { intros p q Hpq. specialize (O Sm p q Hpq). unfold overlap_at_most in O. destruct (H3 p ltac:(lia)) as (Ep & Zp & Dp). destruct (H3 q ltac:(lia)) as (Eq & Zq & Dq).
      destruct (POS p ltac:(lia)) as [Pp|Pp]; [destruct (POS q ltac:(lia)) as [Pq|Pq]|].
      - rewrite sqrt_mult in O by apply square_norm_nonneg. rewrite <- Ep, <- Eq in O.
        assert (D : dot_product rows (col U p) (col U q) = / (vget sigma p * vget sigma q) * dot_product rows (col L p) (col L q)).
        { unfold dot_product. rewrite <- bsum_scal. apply bsum_ext. intros i Hi. unfold col. rewrite Dp, Dq by auto. field. lra. }
        rewrite D, Rabs_mult, Rabs_right. 2:{ left. apply Rinv_0_lt_compat. nra. }
        apply (Rmult_le_reg_l (vget sigma p * vget sigma q)); [nra|]. replace (vget sigma p * vget sigma q * (/ (vget sigma p * vget sigma q) * Rabs (dot_product rows (col L p) (col L q)))) with (Rabs (dot_product rows (col L p) (col L q))) by (field; lra). lra.
      - unfold dot_product. rewrite (bsum_ext rows _ (fun _ => 0)); [rewrite bsum_0, Rabs_R0; lra|]. intros i Hi. unfold col. rewrite (Zq ltac:(auto) i Hi). ring.
      - unfold dot_product. rewrite (bsum_ext rows _ (fun _ => 0)); [rewrite bsum_0, Rabs_R0; lra|]. intros i Hi. unfold col. rewrite (Zp ltac:(auto) i Hi). ring. }
    intros p q Hp Hq N. destruct (Nat.lt_gt_cases p q) as [D _]. destruct (D N) as [H|H]; [apply G; lia|]. rewrite dot_comm. apply G; lia.
Qed.
Lemma svd_spec_at rows cols (m : mat R) (small : Prop) eps : 0 <= eps -> shape rows cols m ->
  (small -> forall p q, (p < q < cols)%nat -> overlap_at_most eps rows (fst (fst (svd_sweeps rows cols 60 m (identity cols)))) p q) ->
  let d := fst (svd_found rows cols m) in
  triple rows cols (mget m) small eps (svd_left d) (singular_values d) (svd_right d) /\ ordered cols cols (singular_values d) /\
  forall k, (k < cols)%nat -> positive_peak rows (svd_left d) k.
Proof.
  intros E0 H O. unfold svd_found. pose proof (sweeps_kept rows cols (mget m) 60 m (identity cols) (identity_kept rows cols m H)) as K.
  destruct (svd_sweeps rows cols 60 m (identity cols)) as [[L V] settled]. cbn [fst] in O. destruct K as [K _].
  pose proof (lengths_triple rows cols (mget m) small eps L V E0 K O) as T. destruct (svd_lengths rows cols L) as [U sigma].
  pose proof (sorted_spec rows cols (mget m) small eps U sigma V T) as S. destruct (fold_left (svd_sort_step cols) _ _) as [[U1 s1] V1]. destruct S as [S1 S2].
  pose proof (signed_spec rows cols (mget m) small eps U1 s1 V1 S1) as G. destruct (fold_left (svd_sign_step rows cols) _ _) as [U2 V2].
  cbn [fst snd svd_left singular_values svd_right]. destruct G as [G1 G2]. split; auto.
Qed.
Lemma epsilon_pos : 0 < epsilon (Num := Rnum).
Proof. rnum. apply Rinv_0_lt_compat, IZR_lt. lia. Qed.
Lemma svd_spec rows cols (m : mat R) : shape rows cols m ->
  let d := fst (svd_found rows cols m) in let settled := snd (svd_found rows cols m) in
  triple rows cols (mget m) (settled = true) epsilon (svd_left d) (singular_values d) (svd_right d) /\ ordered cols cols (singular_values d) /\
  forall k, (k < cols)%nat -> positive_peak rows (svd_left d) k.
Proof.
  intros H. apply svd_spec_at; auto; [pose proof epsilon_pos; lra|].
  unfold svd_found. pose proof (sweeps_kept rows cols (mget m) 60 m (identity cols) (identity_kept rows cols m H)) as K.
  destruct (svd_sweeps rows cols 60 m (identity cols)) as [[L V] settled]. destruct K as [K O]. destruct (svd_lengths _ _ _). destruct (fold_left (svd_sort_step cols) _ _) as [[U1 s1] V1].
  destruct (fold_left (svd_sign_step rows cols) _ _) as [U2 V2]. exact O.
Qed.

(** ** Two columns *)
(** one rotation makes its two columns orthogonal *)
Lemma rotated_orthogonal rows cols (L : mat R) p q : shape rows cols L -> (p < q < cols)%nat -> dot_product rows (col L p) (col L q) <> 0 ->
  let t := rotation_tangent (square_norm rows (col L p)) (square_norm rows (col L q)) (dot_product rows (col L p) (col L q)) in
  let c := rotation_cosine t in let L' := rotate_columns rows L p q c (c * t) in dot_product rows (col L' p) (col L' q) = 0.
Proof.
  intros H Hpq G. cbv zeta. set (al := square_norm rows (col L p)). set (be := square_norm rows (col L q)). set (ga := dot_product rows (col L p) (col L q)) in *.
  pose proof (tangent_spec al be ga G) as T. cbv zeta in T. set (t := rotation_tangent al be ga) in *. pose proof (cosine_spec t) as [C _]. set (c := rotation_cosine t) in *.
  rewrite <- form_unit, (rotated_form rows cols L p q c (c * t) unit_matrix H ltac:(lia) ltac:(lia) ltac:(lia) p q ltac:(lia) ltac:(lia)).
  unfold rotated_column. rewrite Nat.eqb_refl. destruct (Nat.eqb_spec q p) as [E|_]; [lia|]. rewrite Nat.eqb_refl.
  rewrite !form_linear_l, !form_linear_r, !form_unit. fold ga. rewrite (dot_comm rows (col L q) (col L p)). fold ga. fold (square_norm rows (col L p)) (square_norm rows (col L q)). fold al be.
  replace (c * (c * t * al + c * ga) + - (c * t) * (c * t * ga + c * be)) with (c * c * (ga - (ga * (t * t) + (be - al) * t))) by ring. rewrite T. ring.
Qed.
Lemma pair_orthogonal rows cols p q s : shape rows cols (sw_left s) -> (p < q < cols)%nat ->
  let s' := svd_pair rows cols p s q in
  (s' = {| sw_left := sw_left s; sw_right := sw_right s; sw_off := sw_off s' |} /\ overlaps rows (sw_left s) p q) \/ dot_product rows (col (sw_left s') p) (col (sw_left s') q) = 0.
Proof.
  intros H Hpq. cbv zeta. unfold svd_pair. rewrite !norm_squared_column, dot_columns. cbv zeta.
  destruct (pair_off rows cols p q s) as [_ PO]. unfold svd_pair in PO. rewrite !norm_squared_column, dot_columns in PO. cbv zeta in PO.
  set (al := square_norm rows (col (sw_left s) p)) in *. set (be := square_norm rows (col (sw_left s) q)) in *. set (ga := dot_product rows _ _) in *.
  change (eqb al zero) with (Reqb al 0) in *. change (eqb be zero) with (Reqb be 0) in *.
  assert (A0 : 0 <= al) by apply square_norm_nonneg. assert (B0 : 0 <= be) by apply square_norm_nonneg.
  assert (E0 := epsilon_pos).
  assert (ZA : al = 0 -> ga = 0).
  { intros Z. unfold ga, dot_product. rewrite (bsum_ext rows _ (fun _ => 0)); [apply bsum_0|]. intros i Hi. rewrite (square_norm_zero rows _ Z i Hi). ring. }
  assert (ZB : be = 0 -> ga = 0).
  { intros Z. unfold ga, dot_product. rewrite (bsum_ext rows _ (fun _ => 0)); [apply bsum_0|]. intros i Hi. rewrite (square_norm_zero rows _ Z i Hi). ring. }
  destruct (Reqb al 0) eqn:ZA'; cbn [orb]; [|destruct (Reqb be 0) eqn:ZB'; cbn [orb]]; rcases.
  - right. fold ga. auto.
  - right. fold ga. auto.
  - change (sqrt (mul al be)) with (R_sqrt.sqrt (al * be)). change (abs ga) with (Rabs ga).
    change (leb (Rabs ga) (mul epsilon (R_sqrt.sqrt (al * be)))) with (Rleb (Rabs ga) (epsilon * R_sqrt.sqrt (al * be))).
    destruct (Rleb (Rabs ga) (epsilon * R_sqrt.sqrt (al * be))) eqn:E; rcases; cbn [sw_left].
    + left. split; [reflexivity|]. exact E.
    + right. apply rotated_orthogonal with (cols := cols); auto. fold ga. intros Z. rewrite Z, Rabs_R0 in E. pose proof (sqrt_pos (al * be)). nra.
Qed.
(** when the columns are already orthogonal enough, the sweeps stop at once *)
Lemma sweep_settled rows cols L V : (forall p q, (p < q < cols)%nat -> overlaps rows L p q) ->
  sw_left (svd_sweep rows cols L V) = L /\ sw_off (svd_sweep rows cols L V) <= epsilon.
Proof.
  intros O. unfold svd_sweep. apply (for_loop (fun _ s => sw_left s = L /\ sw_off s <= epsilon)); [lia|split; [reflexivity|pose proof epsilon_pos; cbn [sw_off]; rnum; change (epsilon (Num := Rnum)) with (epsilon (Num := Rnum)) in *; lra]|].
  intros p s Hp Ks. apply (for_loop (fun _ s => sw_left s = L /\ sw_off s <= epsilon)); [lia|exact Ks|].
  intros q s' Hq [K1 K2]. specialize (O p q ltac:(lia)). unfold overlaps in O. unfold svd_pair. rewrite !norm_squared_column, dot_columns, K1. cbv zeta.
  set (al := square_norm rows (col L p)) in *. set (be := square_norm rows (col L q)) in *. set (ga := dot_product rows _ _) in *.
  change (eqb al zero) with (Reqb al 0). change (eqb be zero) with (Reqb be 0).
  assert (A0 : 0 <= al) by apply square_norm_nonneg. assert (B0 : 0 <= be) by apply square_norm_nonneg.
  destruct (Reqb al 0) eqn:ZA'; cbn [orb]; [|destruct (Reqb be 0) eqn:ZB'; cbn [orb]]; rcases; auto.
  change (sqrt (mul al be)) with (R_sqrt.sqrt (al * be)). change (abs ga) with (Rabs ga).
  assert (SP : 0 < R_sqrt.sqrt (al * be)) by (apply sqrt_lt_R0; nra). set (sc := R_sqrt.sqrt (al * be)) in *.
  change (leb (Rabs ga) (mul epsilon sc)) with (Rleb (Rabs ga) (epsilon * sc)).
  destruct (Rleb (Rabs ga) (epsilon * sc)) eqn:E; rcases; [|lra]. cbn [sw_left sw_off]. split; auto.
  change (div (Rabs ga) sc) with (Rabs ga / sc). change (ltb (sw_off s') (Rabs ga / sc)) with (Rltb (sw_off s') (Rabs ga / sc)).
  destruct (Rltb _ _); auto. apply (Rmult_le_reg_r sc); [auto|]. replace (Rabs ga / sc * sc) with (Rabs ga) by (field; lra). auto.
Qed.
Lemma sweeps_next rows cols k (L V : mat R) : svd_sweeps rows cols (S k) L V =
  let s := svd_sweep rows cols L V in if Rleb (sw_off s) epsilon then (sw_left s, sw_right s, true) else svd_sweeps rows cols k (sw_left s) (sw_right s).
Proof. reflexivity. Qed.
Lemma two_columns rows (m : mat R) : shape rows 2 m -> snd (svd_sweeps rows 2 60 m (identity 2)) = true /\
  let L := fst (fst (svd_sweeps rows 2 60 m (identity 2))) in
  (L = m /\ overlaps rows m 0 1) \/ dot_product rows (col L 0) (col L 1) = 0.
Proof.
  intros H. assert (X : forall V, sw_left (svd_sweep rows 2 m V) = sw_left (svd_pair rows 2 0 {| sw_left := m; sw_right := V; sw_off := 0 |} 1)) by (intros; reflexivity).
  assert (Y : forall L, overlaps rows L 0 1 -> forall p q, (p < q < 2)%nat -> overlaps rows L p q).
  { intros L O p q Hpq. replace p with 0%nat by lia. replace q with 1%nat by lia. auto. }
  destruct (pair_orthogonal rows 2 0 1 {| sw_left := m; sw_right := identity 2; sw_off := 0 |} H ltac:(lia)) as [[P1 P2]|P].
  - cbn [sw_left] in P2. destruct (sweep_settled rows 2 m (identity 2) (Y m P2)) as [S1 S2]. change 60%nat with (S 59). rewrite sweeps_next. cbv zeta.
    destruct (Rleb _ _) eqn:E; rcases; [|lra]. cbn [fst snd]. rewrite S1. split; auto.
  - set (s := svd_sweep rows 2 m (identity 2)). assert (Z : dot_product rows (col (sw_left s) 0) (col (sw_left s) 1) = 0) by (unfold s; rewrite X; exact P).
    assert (O : overlaps rows (sw_left s) 0 1).
    { unfold overlaps. rewrite Z, Rabs_R0. apply Rmult_le_pos; [pose proof epsilon_pos; lra|apply sqrt_pos]. }
    destruct (sweep_settled rows 2 (sw_left s) (sw_right s) (Y _ O)) as [S1 S2].
    change 60%nat with (S (S 58)). rewrite (sweeps_next rows 2 59). cbv zeta. fold s.
    destruct (Rleb (sw_off s) epsilon) eqn:E; rcases; [cbn [fst snd]; auto|]. rewrite (sweeps_next rows 2 58). cbv zeta.
    set (s' := svd_sweep rows 2 (sw_left s) (sw_right s)) in *.
    destruct (Rleb (sw_off s') epsilon) eqn:E'; rcases; [|lra]. cbn [fst snd]. rewrite S1. auto.
Qed.
Lemma svd_found_settled rows cols (m : mat R) : snd (svd_found rows cols m) = snd (svd_sweeps rows cols 60 m (identity cols)).
Proof.
  unfold svd_found. destruct (svd_sweeps rows cols 60 m (identity cols)) as [[L V] st]. destruct (svd_lengths _ _ _). destruct (fold_left (svd_sort_step cols) _ _) as [[? ?] ?].
  destruct (fold_left (svd_sign_step rows cols) _ _). reflexivity.
Qed.

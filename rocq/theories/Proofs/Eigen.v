(** Rotations of a symmetric matrix: its form in a turned frame. *)
From Coq Require Import ZArith Reals List Bool Arith Lia Lra Psatz.
From Verif Require Import Base.Scalar Base.RNum Base.Lists Base.Series Base.Det Model.Errors Model.Vector Model.Matrix Model.Lu Model.Svd Spec.Matrix Spec.Svd.
From Verif Require Import Proofs.Matrix Proofs.Lu Proofs.Qr Proofs.Svd Proofs.Pinv Proofs.Roots.
Import ListNotations.
Local Open Scope R_scope.

Definition outside (p q i : nat) : bool := negb (Nat.eqb i p || Nat.eqb i q).
Definition turned (c s : R) (m : mat R) (p q i j : nat) : R :=
  if outside p q i then (if Nat.eqb j p then c * mget m i p - s * mget m i q else if Nat.eqb j q then s * mget m i p + c * mget m i q else mget m i j)
  else if outside p q j then (if Nat.eqb i p then c * mget m j p - s * mget m j q else s * mget m j p + c * mget m j q)
  else mget m i j.
Lemma rotate_others_spec n (m : mat R) p q c s : shape n n m -> (p < n)%nat -> (q < n)%nat -> p <> q ->
  shape n n (rotate_others n m p q c s) /\
  forall i j, (i < n)%nat -> (j < n)%nat -> mget (rotate_others n m p q c s) i j = turned c s m p q i j.
Proof.
  intros H Hp Hq N. unfold rotate_others. rnum.
  set (at_ := fun k i j => if (outside p q i && Nat.ltb i k) || (outside p q j && Nat.ltb j k) then turned c s m p q i j else mget m i j).
  match goal with |- shape _ _ ?r /\ _ => enough (L : shape n n r /\ forall i j, (i < n)%nat -> (j < n)%nat -> mget r i j = at_ n i j) end.
  { destruct L as [L1 L2]. split; auto. intros i j Hi Hj. rewrite L2 by auto. unfold at_, turned.
    destruct (Nat.ltb_spec i n); [|lia]. destruct (Nat.ltb_spec j n); [|lia]. rewrite !andb_true_r. destruct (outside p q i); [reflexivity|]. destruct (outside p q j); reflexivity. }
  apply (for_loop (fun k (x : mat R) => shape n n x /\ forall i j, (i < n)%nat -> (j < n)%nat -> mget x i j = at_ k i j)).
  - lia.
  - split; auto. intros i j Hi Hj. unfold at_. rewrite !andb_false_r. reflexivity.
  - intros k x Hk [X1 X2]. destruct (Nat.eqb k p || Nat.eqb k q) eqn:E.
    + split; auto. intros i j Hi Hj. rewrite X2 by auto. unfold at_. apply orb_true_iff in E.
      assert (O : outside p q k = false) by (unfold outside; destruct E as [E|E]; rewrite E; cbn; rewrite ?orb_true_r; reflexivity).
      assert (W : forall i, outside p q i && Nat.ltb i (S k) = outside p q i && Nat.ltb i k).
      { intros r. destruct (Nat.eq_dec r k) as [->|]; [rewrite O; reflexivity|]. f_equal. destruct (Nat.ltb_spec r (S k)), (Nat.ltb_spec r k); try lia; reflexivity. }
      rewrite !W. reflexivity.
    + apply orb_false_iff in E. destruct E as [E1 E2]. apply Nat.eqb_neq in E1, E2. cbv zeta.
      assert (O : outside p q k = true) by (unfold outside; nat_case; reflexivity).
      assert (KP : mget x k p = mget m k p) by (rewrite X2 by (auto; lia); unfold at_, outside; rewrite Nat.ltb_irrefl; nat_case; reflexivity).
      assert (KQ : mget x k q = mget m k q) by (rewrite X2 by (auto; lia); unfold at_, outside; rewrite Nat.ltb_irrefl; nat_case; reflexivity).
      split; [repeat apply shape_mset; auto|]. intros i j Hi Hj.
      repeat (rewrite (mget_mset n n) by (repeat apply shape_mset; auto; lia)). rewrite !KP, !KQ, X2 by auto.
      rewrite !Nat.eqb_refl. destruct (Nat.eqb_spec q p) as [Q|Q]; [lia|]. destruct (Nat.eqb_spec p q) as [Q'|Q']; [lia|].
      destruct (Nat.eqb_spec k q) as [Q1|Q1]; [lia|]. destruct (Nat.eqb_spec k p) as [Q2|Q2]; [lia|]. cbn [andb].
      unfold at_, turned, outside. nat_case; cbn [andb orb negb]; subst; try lia; try reflexivity.
Qed.

Section Frame.
  Variables (n : nat) (A : matrix).
  Hypothesis SA : symmetric n A.
  (** the working matrix is the form of [A] in an orthonormal frame *)
  Definition frame (V : mat R) : Prop :=
    shape n n V /\ (forall i j, (i < n)%nat -> (j < n)%nat -> bsum n (fun k => mget V i k * mget V j k) = if Nat.eqb i j then 1 else 0) /\
    orthonormal_columns n n (mget V).
  Definition in_frame (W V : mat R) : Prop :=
    shape n n W /\ frame V /\ forall i j, (i < n)%nat -> (j < n)%nat -> mget W i j = form n A (col V i) (col V j).
  Lemma in_frame_sym W V i j : in_frame W V -> (i < n)%nat -> (j < n)%nat -> mget W i j = mget W j i.
  Proof. intros (_ & _ & F) Hi Hj. rewrite !F by auto. apply form_sym; auto. Qed.
  Lemma frame_rotate V p q c s : (p < n)%nat -> (q < n)%nat -> p <> q -> c * c + s * s = 1 -> frame V -> frame (rotate_columns n V p q c s).
  Proof.
    intros Hp Hq N C (F1 & F2 & F3). split; [apply rotate_columns_spec; auto|]. split.
    - intros i j Hi Hj. rewrite (rotate_pairing n n n) by auto. auto.
    - apply rotate_orthonormal; auto.
  Qed.
  Lemma pair_in_frame thr p q s : (p < q < n)%nat -> 0 <= thr -> in_frame (es_working s) (es_vectors s) ->
    in_frame (es_working (eigen_pair n thr p s q)) (es_vectors (eigen_pair n thr p s q)) /\
    (thr < Rabs (mget (es_working s) p q) -> mget (es_working (eigen_pair n thr p s q)) p q = 0).
  Proof.
    intros Hpq T0 F. pose proof F as IF. destruct F as (F1 & F2 & F3). unfold eigen_pair. cbv zeta. set (w := es_working s) in *. set (v := es_vectors s) in *.
    change (abs (mget w p q)) with (Rabs (mget w p q)). change (leb (Rabs (mget w p q)) thr) with (Rleb (Rabs (mget w p q)) thr).
    destruct (Rleb (Rabs (mget w p q)) thr) eqn:E; rcases; cbn [es_working es_vectors].
    { split; [split; auto|]. intros L. lra. }
    set (al := mget w p p). set (be := mget w q q). set (ga := mget w p q) in *.
    assert (G : ga <> 0) by (intros Z; rewrite Z, Rabs_R0 in E; lra).
    pose proof (tangent_spec al be ga G) as T. cbv zeta in T. set (t := rotation_tangent al be ga) in *. pose proof (cosine_spec t) as [C C0]. set (c := rotation_cosine t) in *.
    change (mul t c) with (t * c). change (sub al (mul t ga)) with (al - t * ga). change (add be (mul t ga)) with (be + t * ga). change (@zero R Rnum) with 0.
    assert (CS : c * c + (t * c) * (t * c) = 1) by (rewrite <- C; ring).
    set (w' := mset (mset (mset (mset w p p (al - t * ga)) q q (be + t * ga)) p q 0) q p 0).
    assert (S' : shape n n w') by (unfold w'; repeat apply shape_mset; auto).
    destruct (rotate_others_spec n w' p q c (t * c) S' ltac:(lia) ltac:(lia) ltac:(lia)) as [R1 R2].
    assert (W' : forall i j, (i < n)%nat -> (j < n)%nat -> mget w' i j = if Nat.eqb i p && Nat.eqb j p then al - t * ga else if Nat.eqb i q && Nat.eqb j q then be + t * ga
      else if (Nat.eqb i p && Nat.eqb j q) || (Nat.eqb i q && Nat.eqb j p) then 0 else mget w i j).
    { intros i j Hi Hj. unfold w'. repeat (rewrite (mget_mset n n) by (repeat apply shape_mset; auto; lia)). nat_case; subst; cbn [andb orb]; try lia; reflexivity. }
    assert (FA : form n A (col v p) (col v p) = al) by (symmetry; apply F3; lia).
    assert (FB : form n A (col v q) (col v q) = be) by (symmetry; apply F3; lia).
    assert (FG : form n A (col v p) (col v q) = ga) by (symmetry; apply F3; lia).
    assert (FG' : form n A (col v q) (col v p) = ga) by (rewrite form_sym by auto; exact FG).
    assert (C1 : c * (c * al + - (t * c) * ga) + - (t * c) * (c * ga + - (t * c) * be) = al - t * ga).
    { replace (c * (c * al + - (t * c) * ga) + - (t * c) * (c * ga + - (t * c) * be)) with (c * c * ((1 + t * t) * (al - t * ga) + t * (ga * (t * t) + (be - al) * t - ga))) by ring.
      rewrite T. replace (c * c * ((1 + t * t) * (al - t * ga) + t * (ga - ga))) with ((c * c + t * c * (t * c)) * (al - t * ga)) by ring. rewrite CS. ring. }
    assert (C2 : t * c * (t * c * al + c * ga) + c * (t * c * ga + c * be) = be + t * ga).
    { replace (t * c * (t * c * al + c * ga) + c * (t * c * ga + c * be)) with (c * c * ((1 + t * t) * (be + t * ga) - t * (ga * (t * t) + (be - al) * t - ga))) by ring.
      rewrite T. replace (c * c * ((1 + t * t) * (be + t * ga) - t * (ga - ga))) with ((c * c + t * c * (t * c)) * (be + t * ga)) by ring. rewrite CS. ring. }
    assert (C3 : c * (t * c * al + c * ga) + - (t * c) * (t * c * ga + c * be) = 0).
    { replace (c * (t * c * al + c * ga) + - (t * c) * (t * c * ga + c * be)) with (c * c * (ga - (ga * (t * t) + (be - al) * t))) by ring. rewrite T. ring. }
    split.
    - split; [exact R1|]. split; [apply frame_rotate; auto; lia|]. intros i j Hi Hj. rewrite R2 by auto.
      destruct F2 as (V1 & V2 & V3). rewrite (rotated_form n n v p q c (t * c) A V1 ltac:(lia) ltac:(lia) ltac:(lia) i j Hi Hj).
      unfold turned, outside, rotated_column.
      destruct (Nat.eqb_spec i p) as [Ei|Ei]; [|destruct (Nat.eqb_spec i q) as [Fi|Fi]]; (destruct (Nat.eqb_spec j p) as [Ej|Ej]; [|destruct (Nat.eqb_spec j q) as [Fj|Fj]]);
      cbn [orb negb]; rewrite ?form_linear_l, ?form_linear_r; rewrite !W' by (auto; lia); nat_case; subst; cbn [andb orb]; try lia; rewrite ?FA, ?FB, ?FG, ?FG'; rewrite <- ?F3 by (auto; lia).
      + symmetry. exact C1.
      + symmetry. exact C3.
      + assert (X1 : mget w p j = mget w j p) by (apply (in_frame_sym w v); auto; lia). assert (X2 : mget w q j = mget w j q) by (apply (in_frame_sym w v); auto; lia).
        rewrite X1, X2. ring.
      + symmetry. rewrite <- C3. ring.
      + symmetry. exact C2.
      + assert (X1 : mget w p j = mget w j p) by (apply (in_frame_sym w v); auto; lia). assert (X2 : mget w q j = mget w j q) by (apply (in_frame_sym w v); auto; lia).
        rewrite X1, X2. ring.
      + ring.
      + ring.
      + reflexivity.
    - intros _. rewrite R2 by lia. unfold turned, outside. rewrite !Nat.eqb_refl. rewrite orb_true_r. cbn [negb orb]. rewrite W' by lia. nat_case; cbn [andb orb]; try lia; reflexivity.
  Qed.

  Lemma pair_off_max thr p q s : 0 <= thr -> (p < q < n)%nat ->
    es_off s <= es_off (eigen_pair n thr p s q) /\
    (es_off (eigen_pair n thr p s q) <= thr ->
      es_working (eigen_pair n thr p s q) = es_working s /\ es_vectors (eigen_pair n thr p s q) = es_vectors s /\ Rabs (mget (es_working s) p q) <= thr) /\
    (Rabs (mget (es_working s) p q) <= thr -> es_working (eigen_pair n thr p s q) = es_working s /\ es_off (eigen_pair n thr p s q) <= Rmax (es_off s) thr).
  Proof.
    intros T0 Hpq. unfold eigen_pair. cbv zeta. change (abs (mget (es_working s) p q)) with (Rabs (mget (es_working s) p q)). set (g := Rabs (mget (es_working s) p q)).
    change (leb g thr) with (Rleb g thr). change (max (es_off s) g) with (Rmax (es_off s) g).
    pose proof (Rmax_l (es_off s) g). pose proof (Rmax_r (es_off s) g).
    destruct (Rleb g thr) eqn:E; rcases; cbn [es_off es_working es_vectors]; (split; [auto|]); split; intros Q; try lra.
    - split; auto.
    - split; auto. apply Rmax_lub; [apply Rmax_l|]. apply Rle_trans with (2 := Rmax_r _ _). lra.
  Qed.
  Lemma sweep_in_frame thr W V : 0 <= thr -> in_frame W V -> in_frame (es_working (eigen_one_sweep n thr W V)) (es_vectors (eigen_one_sweep n thr W V)).
  Proof.
    intros T0 K. unfold eigen_one_sweep. apply (for_loop (fun _ s => in_frame (es_working s) (es_vectors s))); [lia|exact K|].
    intros p s Hp Ks. apply (for_loop (fun _ s => in_frame (es_working s) (es_vectors s))); [lia|exact Ks|].
    intros q s' Hq Ks'. apply pair_in_frame; auto; lia.
  Qed.
  Lemma sweep_quiet thr W V : 0 <= thr -> es_off (eigen_one_sweep n thr W V) <= thr ->
    es_working (eigen_one_sweep n thr W V) = W /\ es_vectors (eigen_one_sweep n thr W V) = V /\ forall p q, (p < q < n)%nat -> Rabs (mget W p q) <= thr.
  Proof.
    intros T0. set (P := fun (b : nat -> nat -> Prop) (s : eigen_sweep) => es_off s <= thr -> es_working s = W /\ es_vectors s = V /\ forall p q, (p < q < n)%nat -> b p q -> Rabs (mget W p q) <= thr).
    enough (G : P (fun p q => (p < n)%nat) (eigen_one_sweep n thr W V)).
    { intros H. destruct (G H) as (G1 & G2 & G3). split; auto. split; auto. intros p q Hpq. apply G3; auto. lia. }
    unfold eigen_one_sweep. apply (for_loop (fun k s => P (fun p q => (p < k)%nat) s)).
    - lia.
    - intros _. split; auto. split; auto. intros p q Hpq Hb. lia.
    - intros k s Hk Ps. assert (G : P (fun p q => (p < k)%nat \/ (p = k /\ (q < n)%nat)) (fold_left (eigen_pair n thr k) (range (k + 1) n) s)).
      { apply (for_loop (fun l s => P (fun p q => (p < k)%nat \/ (p = k /\ (q < l)%nat)) s)).
        - lia.
        - intros H. destruct (Ps H) as (P1 & P2 & P3). split; auto. split; auto. intros p q Hpq [Hb|[Hb1 Hb2]]; [apply P3; auto|lia].
        - intros l s' Hl Ps'. intros H. destruct (pair_off_max thr k l s' T0 ltac:(lia)) as (Q1 & Q2 & _). destruct (Q2 H) as (R1 & R2 & R3).
          destruct (Ps' ltac:(lra)) as (S1 & S2 & S3). rewrite R1, R2. split; auto. split; auto. intros p q Hpq [Hb|[Hb1 Hb2]]; [apply S3; auto|].
          destruct (Nat.eq_dec q l) as [Eq|]; [rewrite Hb1, Eq, <- S1; auto|apply S3; auto; right; lia]. }
      intros H. destruct (G H) as (G1 & G2 & G3). split; auto. split; auto. intros p q Hpq Hb. apply G3; auto. lia.
  Qed.
  Lemma eigen_sweeps_spec thr k : forall W V, 0 <= thr -> in_frame W V -> let '(W', V', settled) := eigen_sweeps n k thr W V in
    in_frame W' V' /\ (settled = true -> forall p q, (p < q < n)%nat -> Rabs (mget W' p q) <= thr).
  Proof.
    induction k as [|k IH]; intros W V T0 K; cbn [eigen_sweeps]; [split; [auto|discriminate]|]. cbv zeta.
    change (leb (es_off (eigen_one_sweep n thr W V)) thr) with (Rleb (es_off (eigen_one_sweep n thr W V)) thr).
    destruct (Rleb (es_off (eigen_one_sweep n thr W V)) thr) eqn:E; rcases.
    - destruct (sweep_quiet thr W V T0 E) as (Q1 & Q2 & Q3). rewrite Q1, Q2. split; auto.
    - apply IH; auto. apply sweep_in_frame; auto.
  Qed.

  (** ** Sorting and signs *)
  Section Sorted.
    Variables (small : Prop) (thr : R).
    Definition spectrum (values : list R) (V : mat R) : Prop :=
      frame V /\ length values = n /\ (forall k, (k < n)%nat -> vget values k = form n A (col V k) (col V k)) /\
      (small -> forall p q, (p < n)%nat -> (q < n)%nat -> p <> q -> Rabs (form n A (col V p) (col V q)) <= thr).
    Lemma spectrum_swap values V p q : (p < n)%nat -> (q < n)%nat -> spectrum values V -> spectrum (swap 0 values p q) (swap_columns V p q).
    Proof.
      intros Hp Hq ((F1 & F2 & F3) & L & Fm & Sm). destruct (swap_columns_spec n n V p q F1 Hp Hq) as [V1 V2].
      assert (X : forall k, (k < n)%nat -> (exchange p q k < n)%nat) by (intros; apply exchange_lt; auto).
      assert (C : forall k, (k < n)%nat -> equal_vectors n (col (swap_columns V p q) k) (col V (exchange p q k))) by (intros k Hk i Hi; apply V2; auto).
      split; [split; [auto|split]|split; [rewrite swap_length; auto|split]].
      - intros i j Hi Hj. rewrite <- (F2 i j Hi Hj). apply swap_pairing with (r1 := n) (r2 := n); auto.
      - intros i j Hi Hj. rewrite (dot_ext n _ (column (mget V) (exchange p q i)) _ (column (mget V) (exchange p q j))) by (intros r Hr; apply V2; auto).
        rewrite F3 by auto. destruct (Nat.eqb_spec i j) as [->|N]; [rewrite Nat.eqb_refl; reflexivity|].
        destruct (Nat.eqb_spec (exchange p q i) (exchange p q j)) as [E|]; [apply exchange_inj in E; lia|reflexivity].
      - intros k Hk. rewrite vget_swap by lia. rewrite Fm by auto. apply form_ext; intros r Hr; symmetry; apply C; auto.
      - intros S a b Ha Hb N. rewrite (form_ext n A _ (col V (exchange p q a)) _ (col V (exchange p q b))) by (apply C; auto). apply Sm; auto. intros E. apply exchange_inj in E. auto.
    Qed.
    Lemma spectrum_negate values V k : (k < n)%nat -> spectrum values V -> spectrum values (negate_column n V k).
    Proof.
      intros Hk ((F1 & F2 & F3) & L & Fm & Sm). destruct (negate_column_spec n n V k F1 Hk) as [V1 V2].
      set (sg := fun j : nat => if Nat.eqb j k then -1 else 1).
      assert (SS : forall j, sg j * sg j = 1) by (intros; unfold sg; destruct (Nat.eqb j k); ring).
      assert (SA' : forall j, Rabs (sg j) = 1) by (intros; unfold sg; destruct (Nat.eqb j k); [rewrite Rabs_left; lra|apply Rabs_R1]).
      assert (VE : forall i j, (i < n)%nat -> (j < n)%nat -> mget (negate_column n V k) i j = sg j * mget V i j) by (intros; rewrite V2 by auto; unfold sg; destruct (Nat.eqb j k); ring).
      assert (FE : forall S a b, (a < n)%nat -> (b < n)%nat -> form n S (col (negate_column n V k) a) (col (negate_column n V k) b) = sg a * sg b * form n S (col V a) (col V b)).
      { intros S a b Ha Hb. rewrite (form_ext n S _ (fun i => sg a * col V a i + 0 * col V a i) _ (fun i => sg b * col V b i + 0 * col V b i)) by (intros i Hi; unfold col; rewrite VE by auto; ring).
        rewrite form_linear_l, !form_linear_r. ring. }
      split; [split; [auto|split]|split; [auto|split]].
      - intros i j Hi Hj. rewrite <- (F2 i j Hi Hj). apply negate_pairing with (r1 := n) (r2 := n); auto.
      - intros i j Hi Hj. change (dot_product n (col (negate_column n V k) i) (col (negate_column n V k) j) = if Nat.eqb i j then 1 else 0).
        rewrite <- form_unit, FE, form_unit by auto. change (col V i) with (column (mget V) i). change (col V j) with (column (mget V) j). rewrite F3 by auto.
        destruct (Nat.eqb_spec i j) as [->|]; [rewrite SS|]; ring.
      - intros l Hl. rewrite FE, SS, Fm by auto. ring.
      - intros S a b Ha Hb N. rewrite FE by auto. rewrite !Rabs_mult, !SA', !Rmult_1_l. auto.
    Qed.
    Lemma eigen_sorted values V : spectrum values V -> let '(values', V') := fold_left (eigen_sort_step n) (range 0 n) (values, V) in
      spectrum values' V' /\ ordered n n values'.
    Proof.
      intros T. assert (G : let st := fold_left (eigen_sort_step n) (range 0 n) (values, V) in spectrum (fst st) (snd st) /\ ordered n n (fst st)).
      { cbv zeta. apply (for_loop (fun k st => spectrum (fst st) (snd st) /\ ordered n k (fst st))).
        - lia.
        - split; auto. intros i j Hi. lia.
        - intros k [s1 V1] Hk [P1 P2]. cbn [fst snd] in *. unfold eigen_sort_step. destruct (top_value_spec n k s1) as [Q1 Q2]; [lia|].
          destruct (Nat.eqb_spec (top_value n k s1) k) as [E|E]; cbn [negb fst snd].
          + split; auto. apply (ordered_keep n s1 k (top_value n k s1)); auto.
          + split; [apply spectrum_swap; auto; lia|]. apply ordered_swap; auto. apply P1. }
      destruct (fold_left _ _ _) as [s' V']. exact G.
    Qed.
    Lemma eigen_signed values V : spectrum values V -> let V' := fold_left (eigen_sign_step n) (range 0 n) V in
      spectrum values V' /\ forall k, (k < n)%nat -> positive_peak n V' k.
    Proof.
      intros T. cbv zeta. apply (for_loop (fun l V => spectrum values V /\ forall k, (k < l)%nat -> positive_peak n V k)).
      - lia.
      - split; auto. intros; lia.
      - intros k V1 Hk [P1 P2]. unfold eigen_sign_step. rnum.
        assert (S1 : shape n n V1) by apply P1. destruct (negate_column_spec n n V1 k S1 ltac:(lia)) as [_ NE].
        destruct (Rltb (mget V1 (largest_row n V1 k) k) 0) eqn:E; rcases.
        + split; [apply spectrum_negate; auto; lia|]. intros j Hj Hr. destruct (Nat.eq_dec j k) as [->|Nj].
          * destruct (largest_row_spec n V1 k Hr) as [L1 L2]. exists (largest_row n V1 k). split; auto. intros i Hi. rewrite !NE by (auto; lia). rewrite Nat.eqb_refl, Rabs_Ropp.
            specialize (L2 i Hi). rewrite (Rabs_left (mget V1 (largest_row n V1 k) k)) in L2 by auto. exact L2.
          * destruct (P2 j ltac:(lia) Hr) as (r & R1 & R2). exists r. split; auto. intros i Hi. rewrite !NE by (auto; lia). destruct (Nat.eqb_spec j k); [lia|]. auto.
        + split; auto. intros j Hj Hr. destruct (Nat.eq_dec j k) as [->|Nj]; [|apply P2; auto; lia].
          destruct (largest_row_spec n V1 k Hr) as [L1 L2]. exists (largest_row n V1 k). split; auto. intros i Hi. specialize (L2 i Hi).
          rewrite (Rabs_right (mget V1 (largest_row n V1 k) k)) in L2 by lra. exact L2.
    Qed.
  End Sorted.
End Frame.

Lemma max_abs_spec n (m : mat R) M : shape n n m -> (forall i j, (i < n)%nat -> (j < n)%nat -> Rabs (mget m i j) <= M) -> 0 <= M -> 0 <= max_abs m <= M.
Proof.
  intros H B M0. unfold max_abs. change (@zero R Rnum) with 0.
  assert (E : List.Forall (fun x => Rabs x <= M) (concat m)).
  { apply Forall_forall. intros x Hx. apply (in_concat_mat n n m x H) in Hx. destruct Hx as (i & j & Hi & Hj & <-). auto. }
  assert (G : forall l b, 0 <= b <= M -> List.Forall (fun x => Rabs x <= M) l -> 0 <= fold_left (fun best x => max best (abs x)) l b <= M).
  { induction l as [|x l IH]; intros b Hb F; cbn [fold_left]; auto. inversion F; subst. apply IH; auto. change (max b (abs x)) with (Rmax b (Rabs x)).
    split; [apply Rle_trans with b; [lra|apply Rmax_l]|]. apply Rmax_lub; lra. }
  apply G; auto. lra.
Qed.
Lemma max_abs_nonneg (m : mat R) : 0 <= max_abs m.
Proof.
  unfold max_abs. change (@zero R Rnum) with 0. assert (G : forall l b, 0 <= b -> 0 <= fold_left (fun best x => max best (abs x)) l b).
  { induction l as [|x l IH]; intros b Hb; cbn [fold_left]; auto. apply IH. change (max b (abs x)) with (Rmax b (Rabs x)). apply Rle_trans with b; [lra|apply Rmax_l]. }
  apply G. lra.
Qed.
Lemma identity_in_frame n (m : mat R) : shape n n m -> in_frame n (mget m) m (identity n).
Proof.
  intros H. destruct (identity_kept n n m H) as (K1 & K2 & K3 & K4 & K5). split; auto. split; [split; auto|].
  assert (I : forall k, (k < n)%nat -> equal_vectors n (col (identity n) k) (fun i => unit_matrix k i)).
  { intros k Hk i Hi. unfold col. rewrite mget_identity by auto. unfold unit_matrix. rewrite Nat.eqb_sym. reflexivity. }
  intros i j Hi Hj. rewrite (form_ext n (mget m) _ (unit_matrix i) _ (unit_matrix j)) by auto. unfold form, dot_product.
  rewrite (bsum_ext n _ (fun k => if Nat.eqb k i then mget m i j else 0)); [rewrite bsum_delta; auto|].
  intros k Hk. unfold unit_matrix at 1. rewrite Nat.eqb_sym. destruct (Nat.eqb_spec k i) as [->|]; [|ring]. rewrite Rmult_1_l. unfold times.
  rewrite (bsum_ext n _ (fun l => if Nat.eqb l j then mget m i j else 0)); [apply bsum_delta; auto|]. intros l Hl. unfold unit_matrix. rewrite Nat.eqb_sym. destruct (Nat.eqb_spec l j) as [->|]; ring.
Qed.
Lemma eigen_spec n (m : mat R) : shape n n m -> symmetric n (mget m) ->
  let d := fst (eigen_found n m) in let settled := snd (eigen_found n m) in
  spectrum n (mget m) (settled = true) (epsilon * max_abs m) (eigenvalues d) (eigenvectors d) /\ ordered n n (eigenvalues d) /\
  forall k, (k < n)%nat -> positive_peak n (eigenvectors d) k.
Proof.
  intros H SA. unfold eigen_found. change (mul epsilon (max_abs m)) with (epsilon * max_abs m). set (thr := epsilon * max_abs m). cbv zeta.
  assert (T0 : 0 <= thr) by (apply Rmult_le_pos; [pose proof epsilon_pos; lra|apply max_abs_nonneg]).
  pose proof (eigen_sweeps_spec n (mget m) SA thr 60 m (identity n) T0 (identity_in_frame n m H)) as K.
  destruct (eigen_sweeps n 60 thr m (identity n)) as [[W V] settled]. destruct K as [(K1 & K2 & K3) K4].
  assert (SP : spectrum n (mget m) (settled = true) thr (from_fn n (fun index => mget W index index)) V).
  { split; auto. split; [unfold from_fn; rewrite map_length, seq_length; auto|]. split.
    - intros k Hk. rewrite vget_from_fn by auto. apply K3; auto.
    - intros S p q Hp Hq N. destruct (Nat.lt_gt_cases p q) as [D _]. destruct (D N) as [L|L]; [rewrite <- K3 by auto; apply K4; auto|].
      rewrite (form_sym n (mget m)) by auto. rewrite <- K3 by auto. apply K4; auto. }
  pose proof (eigen_sorted n (mget m) (settled = true) thr _ _ SP) as S. destruct (fold_left (eigen_sort_step n) _ _) as [s1 V1]. destruct S as [S1 S2].
  destruct (eigen_signed n (mget m) (settled = true) thr _ _ S1) as [G1 G2]. cbn [fst snd eigenvalues eigenvectors]. split; auto.
Qed.

(** ** Expanding in the frame *)
Section Expand.
  Variables (n : nat) (A : matrix) (V : mat R).
  Hypothesis SA : symmetric n A.
  Hypothesis F : frame n V.
  Lemma expand x i : (i < n)%nat -> bsum n (fun k => mget V i k * dot_product n (col V k) x) = x i.
  Proof.
    intros Hi. destruct F as (_ & F2 & _). unfold dot_product.
    rewrite (bsum_ext n _ (fun k => bsum n (fun r => x r * (mget V i k * mget V r k)))) by (intros; rewrite <- bsum_scal; apply bsum_ext; intros; unfold col; ring).
    rewrite bsum_swap. rewrite (bsum_ext n _ (fun r => if Nat.eqb r i then x i else 0)); [apply bsum_delta; auto|].
    intros r Hr. rewrite bsum_scal, F2 by auto. rewrite Nat.eqb_sym. destruct (Nat.eqb_spec r i) as [->|]; ring.
  Qed.
  Lemma parseval x y : bsum n (fun k => dot_product n (col V k) x * dot_product n (col V k) y) = dot_product n x y.
  Proof.
    transitivity (bsum n (fun i => bsum n (fun k => mget V i k * dot_product n (col V k) x) * y i)); [|apply bsum_ext; intros i Hi; rewrite expand by auto; reflexivity]. symmetry.
    rewrite (bsum_ext n (fun i => bsum n (fun k => mget V i k * dot_product n (col V k) x) * y i) (fun i => bsum n (fun k => dot_product n (col V k) x * (mget V i k * y i)))) by (intros; rewrite Rmult_comm, <- bsum_scal; apply bsum_ext; intros; ring).
    rewrite bsum_swap. apply bsum_ext. intros k Hk. rewrite bsum_scal. reflexivity.
  Qed.
  Lemma expand_columns k i : (k < n)%nat -> (i < n)%nat -> times n A (col V k) i = bsum n (fun l => mget V i l * form n A (col V l) (col V k)).
  Proof. intros Hk Hi. symmetry. apply (expand (times n A (col V k)) i Hi). Qed.
  Lemma expand_matrix i j : (i < n)%nat -> (j < n)%nat -> A i j = bsum n (fun k => bsum n (fun l => mget V i k * form n A (col V k) (col V l) * mget V j l)).
  Proof.
    intros Hi Hj. rewrite bsum_swap. rewrite (bsum_ext n _ (fun l => mget V j l * dot_product n (col V l) (A i))).
    - symmetry. apply (expand (A i) j Hj).
    - intros l Hl. rewrite (bsum_ext n _ (fun k => mget V j l * (mget V i k * form n A (col V k) (col V l)))) by (intros; ring). rewrite bsum_scal.
      rewrite <- (expand_columns l i Hl Hi). f_equal. unfold times, dot_product. apply bsum_ext. intros; ring.
  Qed.
  Lemma unit_entry k i : (k < n)%nat -> (i < n)%nat -> Rabs (mget V i k) <= 1.
  Proof. intros Hk Hi. apply (entry_bound V n k i Hi). destruct F as (_ & _ & O). unfold square_norm. change (col V k) with (column (mget V) k). rewrite O, Nat.eqb_refl by auto. lra. Qed.
  Lemma trace_spec : bsum n (fun k => form n A (col V k) (col V k)) = bsum n (fun i => A i i).
  Proof.
    rewrite (bsum_ext n _ (fun k => bsum n (fun i => bsum n (fun j => A i j * (mget V i k * mget V j k))))).
    - rewrite bsum_swap. apply bsum_ext. intros i Hi. rewrite bsum_swap. rewrite (bsum_ext n _ (fun j => if Nat.eqb j i then A i i else 0)); [apply bsum_delta; auto|].
      intros j Hj. rewrite bsum_scal. destruct F as (_ & F2 & _). rewrite F2 by auto. rewrite Nat.eqb_sym. destruct (Nat.eqb_spec j i) as [->|]; ring.
    - intros k Hk. unfold form, dot_product, times. apply bsum_ext. intros i Hi. rewrite <- bsum_scal. apply bsum_ext. intros. unfold col. ring.
  Qed.
  Variables (values : list R) (thr : R).
  Hypothesis T0 : 0 <= thr.
  Hypothesis VS : forall k, (k < n)%nat -> vget values k = form n A (col V k) (col V k).
  Hypothesis OFF : forall p q, (p < n)%nat -> (q < n)%nat -> p <> q -> Rabs (form n A (col V p) (col V q)) <= thr.
  Lemma residual_column k i : (k < n)%nat -> (i < n)%nat -> Rabs (times n A (col V k) i - vget values k * mget V i k) <= (INR n - 1) * thr.
  Proof.
    intros Hk Hi. rewrite expand_columns by auto. rewrite VS by auto.
    assert (Q : form n A (col V k) (col V k) * mget V i k = bsum n (fun l => if Nat.eqb l k then form n A (col V k) (col V k) * mget V i k else 0)) by (symmetry; apply bsum_delta; auto).
    rewrite Q, <- bsum_minus. eapply Rle_trans; [apply Rabs_bsum|].
    apply Rle_trans with (bsum n (fun l => thr - if Nat.eqb l k then thr else 0)); [|rewrite bsum_minus, bsum_const, bsum_delta by auto; lra].
    apply bsum_le. intros l Hl. destruct (Nat.eqb_spec l k) as [->|N].
    - replace (_ - _) with 0 by ring. rewrite Rabs_R0. lra.
    - rewrite !Rminus_0_r, Rabs_mult. pose proof (unit_entry l i Hl Hi). pose proof (OFF l k Hl Hk N). pose proof (Rabs_pos (mget V i l)). pose proof (Rabs_pos (form n A (col V l) (col V k))). nra.
  Qed.
  Lemma residual_matrix i j : (i < n)%nat -> (j < n)%nat -> Rabs (A i j - composed n (mget V) (vget values) (mget V) i j) <= INR n * ((INR n - 1) * thr).
  Proof.
    intros Hi Hj.
    assert (E : A i j = bsum n (fun k => times n A (col V k) i * mget V j k)).
    { rewrite expand_matrix by auto. rewrite bsum_swap. apply bsum_ext. intros l Hl. rewrite expand_columns by auto. rewrite (Rmult_comm (bsum _ _)), <- bsum_scal. apply bsum_ext. intros; ring. }
    rewrite E. unfold composed. rewrite <- bsum_minus. eapply Rle_trans; [apply Rabs_bsum|]. rewrite <- bsum_const. apply bsum_le. intros k Hk.
    replace (times n A (col V k) i * mget V j k - mget V i k * vget values k * mget V j k) with ((times n A (col V k) i - vget values k * mget V i k) * mget V j k) by ring.
    rewrite Rabs_mult. pose proof (residual_column k i Hk Hi). pose proof (unit_entry k j Hk Hj). pose proof (Rabs_pos (mget V j k)). pose proof (Rabs_pos (times n A (col V k) i - vget values k * mget V i k)). nra.
  Qed.
  Lemma form_lower x least : (forall k, (k < n)%nat -> least <= vget values k) -> (least - INR n * thr) * square_norm n x <= form n A x x.
  Proof.
    intros HL. set (y := fun k => dot_product n (col V k) x).
    assert (N : square_norm n x = bsum n (fun k => y k * y k)) by (symmetry; apply parseval).
    assert (E : form n A x x = bsum n (fun k => bsum n (fun l => y k * form n A (col V k) (col V l) * y l))).
    { unfold form at 1. rewrite <- parseval. apply bsum_ext. intros k Hk. fold (y k). rewrite (bsum_ext n _ (fun l => y k * (form n A (col V k) (col V l) * y l))) by (intros; ring). rewrite bsum_scal. f_equal.
      (* v_k . A x = sum_l (v_k . A v_l) y_l *)
      assert (SY : dot_product n (col V k) (times n A x) = dot_product n (times n A (col V k)) x).
      { fold (form n A (col V k) x). rewrite form_sym by auto. unfold form. apply dot_comm. }
      rewrite SY. rewrite <- parseval. apply bsum_ext. intros l Hl. fold (y l). f_equal. fold (form n A (col V l) (col V k)). apply form_sym; auto. }
    rewrite E.
    assert (Y2 : forall k l, - (thr * ((y k * y k + y l * y l) / 2)) <= thr * - (Rabs (y k) * Rabs (y l))).
    { intros k l. assert (Rabs (y k) * Rabs (y l) <= (y k * y k + y l * y l) / 2).
      { pose proof (Rle_0_sqr (Rabs (y k) - Rabs (y l))) as Q. unfold Rsqr in Q. assert (Q1 : Rabs (y k) * Rabs (y k) = y k * y k) by (rewrite <- Rabs_mult; apply Rabs_right; nra).
        assert (Q2 : Rabs (y l) * Rabs (y l) = y l * y l) by (rewrite <- Rabs_mult; apply Rabs_right; nra). nra. }
      nra. }
    apply Rle_trans with (bsum n (fun k => bsum n (fun l => (if Nat.eqb l k then least * (y k * y k) else 0) - thr * ((y k * y k + y l * y l) / 2)))).
    - rewrite (bsum_ext n (fun k => bsum n (fun l => (if Nat.eqb l k then least * (y k * y k) else 0) - thr * ((y k * y k + y l * y l) / 2)))
        (fun k => least * (y k * y k) - (INR n * (thr / 2) * (y k * y k) + thr / 2 * square_norm n x))).
      + rewrite bsum_minus, bsum_plus, !bsum_scal, bsum_const, <- N. lra.
      + intros k Hk. rewrite bsum_minus, bsum_delta by auto. f_equal. rewrite (bsum_ext n _ (fun l => thr / 2 * (y k * y k) + thr / 2 * (y l * y l))) by (intros; field). rewrite bsum_plus, bsum_const, bsum_scal, <- N. ring.
    - apply bsum_le. intros k Hk. apply bsum_le. intros l Hl. destruct (Nat.eqb_spec l k) as [->|Nk].
      + rewrite <- VS by auto. specialize (HL k Hk). assert (0 <= y k * y k) by nra. nra.
      + pose proof (OFF k l Hk Hl ltac:(auto)) as O. rewrite Rminus_0_l. apply Rle_trans with (1 := Y2 k l).
        set (f := form n A (col V k) (col V l)) in *.
        assert (Q : - (Rabs f * (Rabs (y k) * Rabs (y l))) <= y k * f * y l).
        { replace (y k * f * y l) with (f * (y k * y l)) by ring. rewrite <- !Rabs_mult. pose proof (Rle_abs (- (f * (y k * y l)))) as QA. rewrite Rabs_Ropp in QA. lra. }
        pose proof (Rabs_pos (y k)). pose proof (Rabs_pos (y l)). assert (0 <= Rabs (y k) * Rabs (y l)) by nra. nra.
  Qed.
End Expand.

(** a matrix put together in a frame *)
Section Composed.
  Variables (n : nat) (V : mat R) (r : nat -> R).
  Hypothesis F : frame n V.
  Lemma composed_times x i : times n (composed n (mget V) r (mget V)) x i = bsum n (fun k => mget V i k * (r k * dot_product n (col V k) x)).
  Proof.
    unfold times, composed. rewrite (bsum_ext n _ (fun j => bsum n (fun k => mget V i k * r k * (mget V j k * x j)))) by (intros; rewrite Rmult_comm, <- bsum_scal; apply bsum_ext; intros; ring).
    rewrite bsum_swap. apply bsum_ext. intros k Hk. rewrite bsum_scal. unfold dot_product, col. ring.
  Qed.
  Lemma composed_column k i : (k < n)%nat -> times n (composed n (mget V) r (mget V)) (col V k) i = r k * mget V i k.
  Proof.
    intros Hk. rewrite composed_times. rewrite (bsum_ext n _ (fun l => if Nat.eqb l k then r k * mget V i k else 0)); [apply bsum_delta; auto|].
    intros l Hl. destruct F as (_ & _ & O). change (dot_product n (col V l) (col V k)) with (dot_product n (column (mget V) l) (column (mget V) k)). rewrite O by auto. destruct (Nat.eqb_spec l k) as [->|]; ring.
  Qed.
  Lemma composed_form x least : (forall k, (k < n)%nat -> least <= r k) -> least * square_norm n x <= form n (composed n (mget V) r (mget V)) x x.
  Proof.
    intros HL. unfold square_norm. rewrite <- (parseval n V F x x). rewrite <- bsum_scal.
    assert (E : form n (composed n (mget V) r (mget V)) x x = bsum n (fun k => r k * (dot_product n (col V k) x * dot_product n (col V k) x))).
    { unfold form, dot_product at 1. rewrite (bsum_ext n _ (fun i => bsum n (fun k => r k * dot_product n (col V k) x * (mget V i k * x i)))).
      - rewrite bsum_swap. apply bsum_ext. intros k Hk. rewrite bsum_scal. change (bsum n (fun i => mget V i k * x i)) with (dot_product n (col V k) x). ring.
      - intros i Hi. rewrite composed_times, <- bsum_scal. apply bsum_ext. intros; ring. }
    rewrite E. apply bsum_le. intros k Hk. specialize (HL k Hk). set (y := dot_product n (col V k) x). assert (0 <= y * y) by nra. nra.
  Qed.
End Composed.

(** ** Raising the eigenvalues: both halves are written from the same sum, whatever the scalar *)
Section Clamped.
  Context {T : Type} {NT : Num T}.
  Variables (n : nat) (d : eigen (T := T)) (floor : T).
  Definition clamped_entry (row column : nat) : T :=
    loop_sum n (fun k => mul (mul (mget (eigenvectors d) row k) (vget (from_fn n (fun index => max (vget (eigenvalues d) index) floor)) k)) (mget (eigenvectors d) column k)).
  Lemma clamped_spec : shape n n (eigen_clamped n d floor) /\
    forall i j, (i <= j < n)%nat -> mget (eigen_clamped n d floor) i j = clamped_entry i j /\ mget (eigen_clamped n d floor) j i = clamped_entry i j.
  Proof.
    unfold eigen_clamped. cbv zeta.
    match goal with |- shape _ _ ?r /\ _ => enough (L : shape n n r /\ forall i j, (i < n)%nat -> (i <= j < n)%nat -> mget r i j = clamped_entry i j /\ mget r j i = clamped_entry i j) end.
    { destruct L as [L1 L2]. split; auto. intros i j Hij. apply L2; lia. }
    apply (for_loop (fun l (x : mat T) => shape n n x /\ forall i j, (i < l)%nat -> (i <= j < n)%nat -> mget x i j = clamped_entry i j /\ mget x j i = clamped_entry i j)).
    - lia.
    - split; [apply shape_zeros|]. intros; lia.
    - intros row x Hrow [X1 X2].
      match goal with |- shape _ _ ?r /\ _ => enough (L : shape n n r /\ forall i j, ((i < row)%nat \/ (i = row /\ (j < n)%nat)) -> (i <= j < n)%nat -> mget r i j = clamped_entry i j /\ mget r j i = clamped_entry i j) end.
      { destruct L as [L1 L2]. split; auto. intros i j Hi Hj. apply L2; lia. }
      apply (for_loop (fun c (x : mat T) => shape n n x /\ forall i j, ((i < row)%nat \/ (i = row /\ (j < c)%nat)) -> (i <= j < n)%nat -> mget x i j = clamped_entry i j /\ mget x j i = clamped_entry i j)).
      + lia.
      + split; auto. intros i j Hi Hj. apply X2; lia.
      + intros c y Hc [Y1 Y2]. cbv zeta. split; [repeat apply shape_mset; auto|]. intros i j Hi Hj.
        repeat (rewrite (mget_mset n n) by (repeat apply shape_mset; auto; lia)).
        fold (clamped_entry row c).
        destruct (Nat.eqb_spec i row), (Nat.eqb_spec j c), (Nat.eqb_spec i c), (Nat.eqb_spec j row); cbn [andb]; try lia; try (apply Y2; lia);
        replace i with row by lia; replace j with c by lia; auto.
  Qed.
End Clamped.

(** ** Two by two *)
Lemma eigen_sweeps_next n k thr (W V : mat R) : eigen_sweeps n (S k) thr W V =
  let s := eigen_one_sweep n thr W V in if Rleb (es_off s) thr then (es_working s, es_vectors s, true) else eigen_sweeps n k thr (es_working s) (es_vectors s).
Proof. reflexivity. Qed.
Lemma eigen_two thr (W V : mat R) : 0 <= thr -> in_frame 2 (mget W) W V -> symmetric 2 (mget W) -> snd (eigen_sweeps 2 60 thr W V) = true.
Proof.
  intros T0 F SA.
  assert (ONE : forall W V, eigen_one_sweep 2 thr W V = eigen_pair 2 thr 0 {| es_working := W; es_vectors := V; es_off := 0 |} 1) by reflexivity.
  assert (Q : forall W V, Rabs (mget W 0 1) <= thr -> es_off (eigen_one_sweep 2 thr W V) <= thr).
  { intros W1 V1 H. rewrite ONE. destruct (pair_off_max 2 thr 0 1 {| es_working := W1; es_vectors := V1; es_off := 0 |} T0 ltac:(lia)) as (_ & _ & P).
    destruct (P H) as [_ P2]. cbn [es_off] in P2. rewrite Rmax_right in P2 by auto. exact P2. }
  destruct (Rle_or_lt (Rabs (mget W 0 1)) thr) as [L|L].
  - specialize (Q W V L). change 60%nat with (S 59). rewrite eigen_sweeps_next. cbv zeta. destruct (Rleb _ _) eqn:E; rcases; [reflexivity|lra].
  - change 60%nat with (S (S 58)). rewrite eigen_sweeps_next. cbv zeta. destruct (Rleb _ _) eqn:E; [reflexivity|]. rewrite eigen_sweeps_next. cbv zeta.
    set (s := eigen_one_sweep 2 thr W V). assert (Z : mget (es_working s) 0 1 = 0).
    { unfold s. rewrite ONE. apply (pair_in_frame 2 (mget W) SA thr 0 1 {| es_working := W; es_vectors := V; es_off := 0 |}); auto. }
    specialize (Q (es_working s) (es_vectors s)). rewrite Z, Rabs_R0 in Q. specialize (Q T0). destruct (Rleb (es_off (eigen_one_sweep 2 thr (es_working s) (es_vectors s))) thr) eqn:E'; rcases; [reflexivity|lra].
Qed.
Lemma eigen_found_settled n (m : mat R) : snd (eigen_found n m) = snd (eigen_sweeps n 60 (epsilon * max_abs m) m (identity n)).
Proof.
  unfold eigen_found. change (mul epsilon (max_abs m)) with (epsilon * max_abs m). cbv zeta. destruct (eigen_sweeps n 60 _ m (identity n)) as [[W V] st]. destruct (fold_left (eigen_sort_step n) _ _). reflexivity.
Qed.

(** Lemmas about the damped least-squares solver of Model/Qr.v, over exact reals. *)
From Coq Require Import ZArith Reals List Bool Arith Lia Lra Permutation.
From Verif Require Import Base.Scalar Base.RNum Base.Lists Base.Series Base.Det.
From Verif Require Import Model.Errors Model.Vector Model.Matrix Model.Lu Model.Qr Spec.Matrix Proofs.Matrix Proofs.Lu Proofs.Qr.
Import ListNotations.
Local Open Scope R_scope.

Lemma rotation_spec f s : s <> 0 -> let '(sin, cos) := rotation f s in
  sin * sin + cos * cos = 1 /\ - sin * f + cos * s = 0.
Proof.
  intros N. unfold rotation. rnum. replace (25 / 100) with (/ 4) by lra.
  assert (Q : forall t, 0 < / 4 + / 4 * t * t) by (intros t; pose proof (Rle_0_sqr t); unfold Rsqr in *; lra).
  assert (C : forall t, let c := / 2 / R_sqrt.sqrt (/ 4 + / 4 * t * t) in c * c * (1 + t * t) = 1).
  { intros t. cbv zeta. pose proof (sqrt_sqrt _ (Rlt_le _ _ (Q t))) as E. pose proof (sqrt_lt_R0 _ (Q t)) as P.
    set (r := R_sqrt.sqrt _) in *. replace (/ 2 / r * (/ 2 / r)) with (/ 4 / (r * r)) by (field; lra). rewrite E. field. pose proof (Q t). lra. }
  destruct (Rleb (Rabs s) (Rabs f)) eqn:E; rcases.
  - assert (F : f <> 0). { intros ->. rewrite Rabs_R0 in E. apply Rabs_no_R0 in N. pose proof (Rabs_pos s). lra. }
    specialize (C (s / f)). cbv zeta in C. set (c := _ / R_sqrt.sqrt _) in *. split. rewrite <- C. ring. field. auto.
  - specialize (C (f / s)). cbv zeta in C. set (c := _ / R_sqrt.sqrt _) in *. split. rewrite <- C. ring. field. auto.
Qed.

(** ** The triangle being built *)
(** row [r] of the triangle: below row [j] of the loop its diagonal has moved to [g_diag] *)
Definition srow (j : nat) (g : @givens R) (r c : nat) : R :=
  if Nat.ltb c r then 0 else if Nat.eqb c r then (if Nat.ltb r j then vget (g_diag g) r else mget (g_factor g) r r) else mget (g_factor g) c r.
(** the row being rotated in *)
Definition srest (k : nat) (g : @givens R) (c : nat) : R := if Nat.ltb c k then 0 else vget (g_diag g) c.

Definition sized (n : nat) (g : @givens R) : Prop := shape n n (g_factor g) /\ length (g_work g) = n /\ length (g_diag g) = n.

Lemma givens_step_spec n j k g : (j <= k < n)%nat -> sized n g ->
  sized n (givens_step n g k) /\
  (forall r c, (r < n)%nat -> (c < n)%nat -> r <> k -> srow j (givens_step n g k) r c = srow j g r c) /\
  (forall r, r <> k -> vget (g_work (givens_step n g k)) r = vget (g_work g) r) /\
  exists sin cos, sin * sin + cos * cos = 1 /\
    (forall c, (c < n)%nat -> srow j (givens_step n g k) k c = cos * srow j g k c + sin * srest k g c) /\
    (forall c, (c < n)%nat -> srest (S k) (givens_step n g k) c = - sin * srow j g k c + cos * srest k g c) /\
    vget (g_work (givens_step n g k)) k = cos * vget (g_work g) k + sin * g_extra g /\
    g_extra (givens_step n g k) = - sin * vget (g_work g) k + cos * g_extra g.
Proof.
  intros Hk (Z1 & Z2 & Z3). unfold givens_step. rnum. destruct (Reqb (vget (g_diag g) k) 0) eqn:E; rcases.
  { split; [repeat split; auto; apply Z1|]. split; auto. split; auto. exists 0, 1. split; [lra|]. split; [intros; ring|].
    split; [|split; ring]. intros c Hc. unfold srest. nat_case; try ring. assert (c = k) by lia. subst. rewrite E. ring. }
  pose proof (rotation_spec (mget (g_factor g) k k) (vget (g_diag g) k) E) as RS.
  destruct (rotation _ _) as [sin cos]. destruct RS as [RS1 RS2].
  set (f0 := mset (g_factor g) k k (cos * mget (g_factor g) k k + sin * vget (g_diag g) k)).
  assert (S0 : shape n n f0) by (apply shape_mset; auto).
  assert (F0 : forall r c, (r < n)%nat -> (c < n)%nat -> mget f0 r c = if (Nat.eqb r k && Nat.eqb c k)%bool then cos * mget (g_factor g) k k + sin * vget (g_diag g) k else mget (g_factor g) r c).
  { intros r c Hr Hc. unfold f0. rewrite (mget_mset n n) by (auto; lia). nat_case; reflexivity. }
  match goal with |- context [fold_left ?ff (range (k + 1) n) (f0, g_diag g)] => set (body := ff);
    assert (L : let '(fac, sd) := fold_left body (range (k + 1) n) (f0, g_diag g) in
      shape n n fac /\ length sd = n /\
      (forall r c, (r < n)%nat -> (c < n)%nat -> mget fac r c = if (Nat.eqb c k && Nat.leb (k + 1) r && Nat.ltb r n)%bool then cos * mget f0 r k + sin * vget (g_diag g) r else mget f0 r c) /\
      (forall r, vget sd r = if (Nat.leb (k + 1) r && Nat.ltb r n)%bool then - sin * mget f0 r k + cos * vget (g_diag g) r else vget (g_diag g) r)) end.
  { apply (for_loop (fun m (st : mat R * list R) => let '(fac, sd) := st in shape n n fac /\ length sd = n /\
      (forall r c, (r < n)%nat -> (c < n)%nat -> mget fac r c = if (Nat.eqb c k && Nat.leb (k + 1) r && Nat.ltb r m)%bool then cos * mget f0 r k + sin * vget (g_diag g) r else mget f0 r c) /\
      (forall r, vget sd r = if (Nat.leb (k + 1) r && Nat.ltb r m)%bool then - sin * mget f0 r k + cos * vget (g_diag g) r else vget (g_diag g) r))).
    - lia.
    - split; auto. split; auto. split; intros; nat_case; cbn [andb]; try reflexivity; lia.
    - intros m [fac sd] Hm (L1 & L2 & L3 & L4). unfold body. split; [apply shape_mset; auto|]. split; [rewrite set_nth_length; auto|]. split.
      + intros r c Hr Hc. rewrite (mget_mset n n) by (auto; lia). rewrite !L3, L4 by lia. nat_case; subst; cbn [andb]; try reflexivity; try lia.
      + intros r. rewrite vget_set' by lia. rewrite L3, !L4 by lia. nat_case; subst; cbn [andb]; try reflexivity; try lia. }
  destruct (fold_left body _ _) as [fac sd]. destruct L as (L1 & L2 & L3 & L4).
  cbn [g_factor g_work g_diag g_extra].
  split; [split; [exact L1|]; split; [cbn [g_work]; rewrite set_nth_length; auto|exact L2]|].
  split; [|split; [|exists sin, cos; split; [exact RS1|split; [|split; [|split]]]]].
  - intros r c Hr Hc N. unfold srow. cbn [g_factor g_diag]. nat_case; subst; try reflexivity;
      repeat (rewrite L4 || rewrite L3 by lia); nat_case; cbn [andb]; try reflexivity; try lia; rewrite F0 by lia; nat_case; cbn [andb]; try reflexivity; try lia.
  - intros r N. rewrite vget_set' by lia. nat_case. reflexivity.
  - intros c Hc. unfold srow, srest. cbn [g_factor g_diag]. nat_case; subst; try ring;
      rewrite L3 by lia; nat_case; cbn [andb]; try lia; rewrite F0 by lia; nat_case; cbn [andb]; try reflexivity; try lia.
  - intros c Hc. unfold srow, srest. cbn [g_factor g_diag]. destruct (Nat.lt_ge_cases c k).
    + nat_case; ring.
    + destruct (Nat.eq_dec c k) as [->|]. nat_case; lra. rewrite L4, F0 by lia. nat_case; cbn [andb]; try reflexivity; lia.
  - rewrite vget_set' by lia. nat_case. reflexivity.
  - reflexivity.
Qed.

(** what the rotations preserve *)
Definition gram (n : nat) (s : matrix) (e : vector) (a b : nat) : R := bsum n (fun r => s r a * s r b) + e a * e b.
Definition against (n : nat) (s : matrix) (w : vector) (e : vector) (x : R) (a : nat) : R := bsum n (fun r => s r a * w r) + e a * x.

Lemma givens_preserves n j k g : (j <= k < n)%nat -> sized n g ->
  sized n (givens_step n g k) /\
  (forall r c, (r < n)%nat -> (c < n)%nat -> (r < j)%nat -> srow j (givens_step n g k) r c = srow j g r c) /\
  (forall a b, (a < n)%nat -> (b < n)%nat -> gram n (srow j (givens_step n g k)) (srest (S k) (givens_step n g k)) a b = gram n (srow j g) (srest k g) a b) /\
  (forall a, (a < n)%nat -> against n (srow j (givens_step n g k)) (vget (g_work (givens_step n g k))) (srest (S k) (givens_step n g k)) (g_extra (givens_step n g k)) a =
     against n (srow j g) (vget (g_work g)) (srest k g) (g_extra g) a).
Proof.
  intros Hk Z. destruct (givens_step_spec n j k g Hk Z) as (G1 & G2 & G3 & sin & cos & U & G4 & G5 & G6 & G7).
  split; auto. split; [intros; apply G2; auto; lia|]. split.
  - intros a b Ha Hb. unfold gram. rewrite !(bsum_split n k) by lia. rewrite !G4, !G5 by auto.
    rewrite (bsum_ext k _ (fun r => srow j g r a * srow j g r b)) by (intros r Hr; rewrite !G2 by lia; reflexivity).
    set (h := fun r => srow j g (k + 1 + r)%nat a * srow j g (k + 1 + r)%nat b).
    rewrite (bsum_ext (n - (k + 1)) _ h) by (intros r Hr; unfold h; rewrite !G2 by lia; reflexivity).
    set (x := srow j g k a). set (y := srow j g k b). set (e := srest k g a). set (f := srest k g b).
    replace ((cos * x + sin * e) * (cos * y + sin * f)) with ((sin * sin + cos * cos) * (x * y + e * f) - (- sin * x + cos * e) * (- sin * y + cos * f)) by ring.
    rewrite U. ring.
  - intros a Ha. unfold against. rewrite !(bsum_split n k) by lia. rewrite !G4, !G5, G6, G7 by auto.
    rewrite (bsum_ext k _ (fun r => srow j g r a * vget (g_work g) r)) by (intros r Hr; rewrite G2, G3 by lia; reflexivity).
    set (h := fun r => srow j g (k + 1 + r)%nat a * vget (g_work g) (k + 1 + r)%nat).
    rewrite (bsum_ext (n - (k + 1)) _ h) by (intros r Hr; unfold h; rewrite G2, G3 by lia; reflexivity).
    set (x := srow j g k a). set (y := vget (g_work g) k). set (e := srest k g a). set (f := g_extra g).
    replace ((cos * x + sin * e) * (cos * y + sin * f)) with ((sin * sin + cos * cos) * (x * y + e * f) - (- sin * x + cos * e) * (- sin * y + cos * f)) by ring.
    rewrite U. ring.
Qed.

(** ** One diagonal entry, and all of them *)
Section Damped.
  Variables (n : nat) (d : @damped R) (diag saved : list R) (S0 : matrix) (w0 : vector).

  Definition entry (j : nat) : R := vget diag (nth j (d_permutation d) 0%nat).
  (** the Gram matrix and the right-hand side after [j] entries *)
  Record rotated (j : nat) (g : @givens R) : Prop := {
    ro_sized : sized n g;
    ro_gram : forall a b, (a < n)%nat -> (b < n)%nat -> bsum n (fun r => srow j g r a * srow j g r b) =
      bsum n (fun r => S0 r a * S0 r b) + (if (Nat.eqb a b && Nat.ltb a j)%bool then entry a * entry a else 0);
    ro_right : forall a, (a < n)%nat -> bsum n (fun r => srow j g r a * vget (g_work g) r) = bsum n (fun r => S0 r a * w0 r) }.

  Definition closed (j : nat) (g : @givens R) : @givens R :=
    {| g_factor := mset (g_factor g) j j (vget saved j); g_work := g_work g;
       g_diag := set_nth (g_diag g) j (mget (g_factor g) j j); g_extra := g_extra g |}.
  Lemma closed_spec j g : (j < n)%nat -> sized n g -> sized n (closed j g) /\
    forall r c, (r < n)%nat -> (c < n)%nat -> srow (S j) (closed j g) r c = srow j g r c.
  Proof.
    intros Hj (Z1 & Z2 & Z3). split; [split; [apply shape_mset; auto|split; [exact Z2|cbn [closed g_diag]; rewrite set_nth_length; auto]]|].
    intros r c Hr Hc. unfold srow, closed. cbn [g_factor g_diag].
    destruct (Nat.ltb_spec c r); auto. destruct (Nat.eqb_spec c r) as [->|].
    - rewrite vget_set' by lia. rewrite (mget_mset n n) by (auto; lia). nat_case; subst; cbn [andb]; try reflexivity; lia.
    - rewrite (mget_mset n n) by (auto; lia). nat_case; cbn [andb]; try reflexivity; lia.
  Qed.
  Lemma zeroed_spec j (sd : list R) : (j <= n)%nat -> length sd = n ->
    length (fold_left (fun sd i => set_nth sd i zero) (range j n) sd) = n /\
    forall i, vget (fold_left (fun sd i => set_nth sd i zero) (range j n) sd) i = if (Nat.leb j i && Nat.ltb i n)%bool then 0 else vget sd i.
  Proof.
    intros Hj L. apply (for_loop (fun m (x : list R) => length x = n /\ forall i, vget x i = if (Nat.leb j i && Nat.ltb i m)%bool then 0 else vget sd i)); auto.
    - split; auto. intros i. nat_case; cbn [andb]; try reflexivity; lia.
    - intros m x Hm [X1 X2]. split; [rewrite set_nth_length; auto|]. intros i. rewrite vget_set' by lia. rewrite X2. nat_case; cbn [andb]; try reflexivity; try lia.
  Qed.
  Lemma givens_loop j g : (j < n)%nat -> sized n g ->
    let g' := fold_left (givens_step n) (range j n) g in
    sized n g' /\
    (forall a b, (a < n)%nat -> (b < n)%nat -> gram n (srow j g') (srest n g') a b = gram n (srow j g) (srest j g) a b) /\
    (forall a, (a < n)%nat -> against n (srow j g') (vget (g_work g')) (srest n g') (g_extra g') a = against n (srow j g) (vget (g_work g)) (srest j g) (g_extra g) a).
  Proof.
    intros Hj Z. cbv zeta.
    apply (for_loop (fun k g' => sized n g' /\
      (forall a b, (a < n)%nat -> (b < n)%nat -> gram n (srow j g') (srest k g') a b = gram n (srow j g) (srest j g) a b) /\
      (forall a, (a < n)%nat -> against n (srow j g') (vget (g_work g')) (srest k g') (g_extra g') a = against n (srow j g) (vget (g_work g)) (srest j g) (g_extra g) a))).
    - lia.
    - split; auto.
    - intros k x Hk (X1 & X2 & X3). destruct (givens_preserves n j k x Hk X1) as (P1 & _ & P3 & P4). split; auto. split.
      + intros a b Ha Hb. rewrite P3 by auto. auto.
      + intros a Ha. rewrite P4 by auto. auto.
  Qed.
  Lemma damped_step_spec j g : (j < n)%nat -> rotated j g -> rotated (S j) (damped_step n d diag saved g j).
  Proof.
    intros Hj [Z G W]. unfold damped_step. rnum. fold (entry j).
    match goal with |- rotated _ {| g_factor := mset (g_factor ?x) _ _ _; g_work := _; g_diag := _; g_extra := _ |} => set (h := x) end.
    change (rotated (S j) (closed j h)).
    assert (Q : sized n h /\ (forall a b, (a < n)%nat -> (b < n)%nat -> bsum n (fun r => srow j h r a * srow j h r b) =
      bsum n (fun r => S0 r a * S0 r b) + (if (Nat.eqb a b && Nat.ltb a (S j))%bool then entry a * entry a else 0)) /\
      (forall a, (a < n)%nat -> bsum n (fun r => srow j h r a * vget (g_work h) r) = bsum n (fun r => S0 r a * w0 r))).
    { unfold h. destruct (Reqb (entry j) 0) eqn:E; cbn [negb]; rcases.
      - split; auto. split; auto. intros a b Ha Hb. rewrite G by auto. nat_case; cbn [andb]; try reflexivity; try lia.
        replace a with j by lia. rewrite E. ring.
      - destruct Z as (Z1 & Z2 & Z3). destruct (zeroed_spec j (g_diag g) ltac:(lia) Z3) as [O1 O2].
        change (fold_left (fun sd i => set_nth sd i 0)) with (fold_left (fun (sd : list R) i => set_nth sd i zero)).
        set (sd := fold_left _ (range j n) (g_diag g)) in *.
        set (g0 := {| g_factor := g_factor g; g_work := g_work g; g_diag := set_nth sd j (entry j); g_extra := 0 |}).
        assert (S00 : sized n g0) by (split; [exact Z1|]; split; [exact Z2|]; unfold g0; cbn [g_diag]; rewrite set_nth_length; exact O1).
        assert (SE : forall r c, (r < n)%nat -> (c < n)%nat -> srow j g0 r c = srow j g r c).
        { intros r c Hr Hc. unfold srow, g0. cbn [g_factor g_diag]. destruct (Nat.ltb_spec c r); auto. destruct (Nat.eqb_spec c r) as [->|]; auto.
          destruct (Nat.ltb_spec r j); auto. rewrite vget_set' by lia. rewrite O2. nat_case; cbn [andb]; try reflexivity; try lia. }
        assert (RE : forall c, (c < n)%nat -> srest j g0 c = if Nat.eqb c j then entry j else 0).
        { intros c Hc. unfold srest, g0. cbn [g_diag]. rewrite vget_set' by lia. rewrite O2. nat_case; cbn [andb]; try reflexivity; try lia. }
        destruct (givens_loop j g0 Hj S00) as (L1 & L2 & L3). change (fold_left (givens_step n) (range j n) _) with (fold_left (givens_step n) (range j n) g0).
        set (g' := fold_left (givens_step n) (range j n) g0) in *. split; auto.
        assert (R0 : forall c, (c < n)%nat -> srest n g' c = 0) by (intros c Hc; unfold srest; nat_case; reflexivity). split.
        + intros a b Ha Hb. specialize (L2 a b Ha Hb). unfold gram in L2. rewrite !R0, !RE in L2 by auto.
          rewrite (bsum_ext n (fun r => srow j g0 r a * srow j g0 r b) (fun r => srow j g r a * srow j g r b)) in L2 by (intros r Hr; rewrite !SE by auto; reflexivity).
          rewrite G in L2 by auto. revert L2. nat_case; cbn [andb]; intros L2; subst; try lia; lra.
        + intros a Ha. specialize (L3 a Ha). unfold against in L3. rewrite R0 in L3 by auto. 
          rewrite (bsum_ext n (fun r => srow j g0 r a * vget (g_work g0) r) (fun r => srow j g r a * vget (g_work g) r)) in L3 by (intros r Hr; rewrite !SE by auto; reflexivity).
          rewrite W in L3 by auto. cbn [g0 g_extra] in L3. lra. }
    clearbody h. destruct Q as (Q1 & Q2 & Q3). destruct (closed_spec j h Hj Q1) as [C1 C2]. split; auto.
    - intros a b Ha Hb. rewrite <- Q2 by auto. apply bsum_ext. intros r Hr. rewrite !C2 by auto. reflexivity.
    - intros a Ha. rewrite <- Q3 by auto. apply bsum_ext. intros r Hr. rewrite C2 by auto. reflexivity.
  Qed.
  Lemma damped_loop g : rotated 0 g -> rotated n (fold_left (damped_step n d diag saved) (range 0 n) g).
  Proof. intros H. apply (for_loop rotated); auto. lia. intros; apply damped_step_spec; auto. lia. Qed.
End Damped.

(** ** The solve *)
Lemma fold_add_bsum low n (f : nat -> R) : forall s, fold_left (fun sum i => sum + f i) (seq low n) s = s + bsum n (fun i => f (low + i)%nat).
Proof. induction n as [|n IH]; intros s; [cbn; ring|]. rewrite seq_S, fold_left_app, IH. cbn [fold_left bsum]. ring. Qed.
Lemma mirrored_spec n (m : mat R) : shape n n m -> shape n n (mirrored n m) /\
  forall i j, (i < n)%nat -> (j < n)%nat -> mget (mirrored n m) i j = if Nat.ltb j i then mget m j i else mget m i j.
Proof.
  intros H. unfold mirrored.
  match goal with |- shape _ _ ?r /\ _ => enough (L : shape n n r /\ forall i j, (i < n)%nat -> (j < n)%nat -> mget r i j = if (Nat.ltb j n && Nat.ltb j i)%bool then mget m j i else mget m i j) end.
  { destruct L as [L1 L2]. split; auto. intros i j Hi Hj. rewrite L2 by auto. nat_case; reflexivity. }
  apply (for_loop (fun k (r : mat R) => shape n n r /\ forall i j, (i < n)%nat -> (j < n)%nat -> mget r i j = if (Nat.ltb j k && Nat.ltb j i)%bool then mget m j i else mget m i j)).
  - lia.
  - split; auto. 
  - intros k r Hk [R1 R2].
    match goal with |- shape _ _ ?x /\ _ => enough (L : shape n n x /\ forall i j, (i < n)%nat -> (j < n)%nat -> mget x i j = if (Nat.eqb j k && Nat.ltb k i && Nat.ltb i n)%bool then mget r k i else mget r i j) end.
    { destruct L as [L1 L2]. split; auto. intros i j Hi Hj. rewrite L2 by auto. rewrite !R2 by lia. nat_case; subst; cbn [andb]; try reflexivity; lia. }
    apply (for_loop (fun q (x : mat R) => shape n n x /\ forall i j, (i < n)%nat -> (j < n)%nat -> mget x i j = if (Nat.eqb j k && Nat.ltb k i && Nat.ltb i q)%bool then mget r k i else mget r i j)).
    + lia.
    + split; auto. intros i j Hi Hj. nat_case; cbn [andb]; try reflexivity; lia.
    + intros q x Hq [X1 X2]. split; [apply shape_mset; auto|]. intros i j Hi Hj. rewrite (mget_mset n n) by (auto; lia). rewrite !X2 by lia.
      nat_case; subst; cbn [andb]; try reflexivity; lia.
Qed.
Lemma zero_tail_none n (sd work : list R) : (forall j, (j < n)%nat -> vget sd j <> 0) -> zero_tail n sd work = (n, work).
Proof.
  intros H. unfold zero_tail. apply (for_loop (fun _ st => st = (n, work))); auto. lia.
  intros i x Hi ->. rnum. specialize (H i ltac:(lia)). rdecide. cbn [andb]. nat_case. reflexivity.
Qed.
Lemma damped_back_spec n (fac : mat R) (sd work : list R) : length work = n -> (forall j, (j < n)%nat -> vget sd j <> 0) ->
  length (damped_back n fac sd work) = n /\
  forall r, (r < n)%nat -> vget sd r * vget (damped_back n fac sd work) r +
    bsum (n - (r + 1)) (fun c => mget fac (r + 1 + c)%nat r * vget (damped_back n fac sd work) (r + 1 + c)%nat) = vget work r.
Proof.
  intros L D. unfold damped_back.
  match goal with |- length ?x = n /\ _ => enough (G : length x = n /\ (forall r, (r < 0)%nat -> vget x r = vget work r) /\
    forall r, (0 <= r < n)%nat -> vget sd r * vget x r + bsum (n - (r + 1)) (fun c => mget fac (r + 1 + c)%nat r * vget x (r + 1 + c)%nat) = vget work r) end.
  { destruct G as (G1 & _ & G2). split; auto. intros r Hr. apply G2. lia. }
  apply (for_down (fun k (x : list R) => length x = n /\ (forall r, (r < k)%nat -> vget x r = vget work r) /\
    forall r, (k <= r < n)%nat -> vget sd r * vget x r + bsum (n - (r + 1)) (fun c => mget fac (r + 1 + c)%nat r * vget x (r + 1 + c)%nat) = vget work r)).
  - split; auto. split; auto. intros; lia.
  - intros k x Hk (X1 & X2 & X3). rnum. split; [rewrite set_nth_length; auto|]. split.
    + intros r Hr. rewrite vget_set' by lia. nat_case. apply X2. lia.
    + intros r Hr.
      rewrite (bsum_ext (n - (r + 1)) _ (fun c => mget fac (r + 1 + c)%nat r * vget x (r + 1 + c)%nat)) by (intros c Hc; rewrite vget_set' by lia; nat_case; reflexivity).
      rewrite vget_set' by lia. destruct (Nat.eqb_spec r k) as [->|]; [|apply X3; lia].
      unfold range. rewrite (fold_add_bsum (k + 1) (n - (k + 1)) (fun i => mget fac i k * vget x i)). rewrite X2 by lia. specialize (D k ltac:(lia)). rewrite Rplus_0_l. field. exact D.
Qed.

Lemma upper_solvable (u : matrix) k : (forall i, (i < k)%nat -> u i i <> 0) -> forall b : vector,
  exists y : vector, forall i, (i < k)%nat -> bsum k (fun j => (if Nat.ltb j i then 0 else u i j) * y j) = b i.
Proof.
  induction k as [|k IH]; intros D b; [exists (fun _ => 0); intros; lia|].
  destruct (IH ltac:(intros; apply D; lia) (fun i => b i - u i k * (b k / u k k))) as [y Hy].
  exists (fun j => if Nat.eqb j k then b k / u k k else y j). intros i Hi. cbn [bsum].
  rewrite (bsum_ext k _ (fun j => (if Nat.ltb j i then 0 else u i j) * y j)) by (intros j Hj; nat_case; reflexivity).
  destruct (Nat.eq_dec i k) as [->|].
  - rewrite (bsum_ext k _ (fun _ => 0)) by (intros j Hj; nat_case; ring). rewrite bsum_0. nat_case. field. apply D. lia.
  - rewrite Hy by lia. nat_case. ring.
Qed.
Lemma first_zero (u : vector) n : (forall i, (i < n)%nat -> u i <> 0) \/ exists k, (k < n)%nat /\ u k = 0 /\ forall i, (i < k)%nat -> u i <> 0.
Proof.
  induction n as [|n [IH|(k & K1 & K2)]]; [left; intros; lia| |right; exists k; split; auto].
  destruct (Req_dec (u n) 0); [right; exists n; split; auto; lia|left]. intros i Hi. destruct (Nat.eq_dec i n) as [->|]; auto. apply IH. lia.
Qed.
Lemma upper_zero_kernel n (u : matrix) k : (k < n)%nat -> u k k = 0 -> (forall i, (i < k)%nat -> u i i <> 0) ->
  exists v : vector, v k <> 0 /\ forall i, (i < n)%nat -> bsum n (fun j => (if Nat.ltb j i then 0 else u i j) * v j) = 0.
Proof.
  intros Hk Z D. destruct (upper_solvable u k D (fun i => - u i k)) as [y Hy].
  exists (fun j => if Nat.ltb j k then y j else if Nat.eqb j k then 1 else 0). split; [nat_case; lra|].
  intros i Hi. rewrite (bsum_split n k) by auto.
  rewrite (bsum_ext (n - (k + 1)) _ (fun _ => 0)) by (intros j Hj; nat_case; ring). rewrite bsum_0.
  rewrite (bsum_ext k _ (fun j => (if Nat.ltb j i then 0 else u i j) * y j)) by (intros j Hj; nat_case; reflexivity).
  destruct (Nat.lt_ge_cases i k).
  - rewrite Hy by auto. nat_case. ring.
  - rewrite (bsum_ext k _ (fun _ => 0)) by (intros j Hj; nat_case; ring). rewrite bsum_0. nat_case; try ring.
    replace i with k by lia. rewrite Z. ring.
Qed.

(** the triangle that comes back with the solution *)
Definition triangle (f : @damped_factor R) : matrix :=
  fun r c => if Nat.ltb c r then 0 else if Nat.eqb c r then vget (s_diag f) r else mget (factor f) c r.

Section Solve.
  Variables (n : nat) (d : @damped R) (diag : list R).
  Hypothesis Ht : shape n n (triangular d).
  Hypothesis Hu : upper_triangular n (mget (triangular d)).
  Hypothesis Hq : length (qt_b d) = n.
  Hypothesis Hp : Permutation (d_permutation d) (seq 0 n).
  Notation T := (mget (triangular d)).
  Notation D := (fun j => vget diag (nth j (d_permutation d) 0%nat)).
  Notation out := (solve_with_diagonal n d diag).

  Lemma start_rotated : rotated n d diag T (vget (qt_b d)) 0
    {| g_factor := mirrored n (triangular d); g_work := qt_b d; g_diag := repeat zero n; g_extra := zero |}.
  Proof.
    destruct (mirrored_spec n (triangular d) Ht) as [M1 M2].
    assert (E : forall r c, (r < n)%nat -> (c < n)%nat -> srow 0 {| g_factor := mirrored n (triangular d); g_work := qt_b d; g_diag := repeat zero n; g_extra := zero |} r c = T r c).
    { intros r c Hr Hc. unfold srow. cbn [g_factor g_diag]. destruct (Nat.ltb_spec c r). symmetry; apply Hu; auto.
      destruct (Nat.eqb_spec c r) as [->|]. rewrite M2 by auto. nat_case; reflexivity. rewrite M2 by auto. nat_case; reflexivity. }
    split.
    - split; [exact M1|]. split; [exact Hq|]. apply repeat_length.
    - intros a b Ha Hb. rewrite (bsum_ext n _ (fun r => T r a * T r b)) by (intros r Hr; rewrite !E by auto; reflexivity).
      destruct (Nat.eqb a b); cbn [andb]; change (Nat.ltb a 0) with false; cbn iota; ring.
    - intros a Ha. cbn [g_work]. apply bsum_ext. intros r Hr. rewrite E by auto. reflexivity.
  Qed.

  Lemma solve_factor : (forall a b, (a < n)%nat -> (b < n)%nat -> bsum n (fun r => triangle (snd out) r a * triangle (snd out) r b) =
      bsum n (fun r => T r a * T r b) + (if Nat.eqb a b then D a * D a else 0)) /\
    ((forall r, (r < n)%nat -> triangle (snd out) r r <> 0) -> length (fst out) = n /\
      forall a, (a < n)%nat -> bsum n (fun b => bsum n (fun r => triangle (snd out) r a * triangle (snd out) r b) * vget (fst out) (nth b (d_permutation d) 0%nat)) =
        bsum n (fun r => T r a * vget (qt_b d) r)).
  Proof.
    unfold solve_with_diagonal. pose proof (damped_loop n d diag (from_fn n (fun j => mget (mirrored n (triangular d)) j j)) T (vget (qt_b d)) _ start_rotated) as [Z G W].
    set (g := fold_left (damped_step n d diag _) (range 0 n) _) in *.
    assert (SE : forall r c, (r < n)%nat -> srow n g r c = triangle {| factor := g_factor g; s_diag := g_diag g |} r c).
    { intros r c Hr. unfold srow, triangle. cbn [factor s_diag]. nat_case; reflexivity. }
    split.
    - destruct (zero_tail n (g_diag g) (g_work g)) as [ns wk]. cbn [snd]. intros a b Ha Hb.
      rewrite <- (bsum_ext n (fun r => srow n g r a * srow n g r b)) by (intros r Hr; rewrite !SE by auto; reflexivity).
      rewrite G by auto. unfold entry. nat_case; cbn [andb]; reflexivity.
    - destruct (zero_tail n (g_diag g) (g_work g)) as [ns wk] eqn:ZT. cbn [fst snd]. intros N.
      assert (N' : forall j, (j < n)%nat -> vget (g_diag g) j <> 0) by (intros j Hj; specialize (N j Hj); unfold triangle in N; cbn [s_diag] in N; revert N; nat_case; auto).
      rewrite (zero_tail_none n (g_diag g) (g_work g) N') in ZT. injection ZT as <- <-.
      destruct Z as (Z1 & Z2 & Z3). destruct (damped_back_spec n (g_factor g) (g_diag g) (g_work g) Z2 N') as [B1 B2].
      set (y := damped_back n (g_factor g) (g_diag g) (g_work g)) in *.
      destruct (unpermute_spec n (d_permutation d) y Hp) as [U1 U2]. split; auto. intros a Ha.
      rewrite <- W by auto. set (t := triangle _) in *.
      assert (TS : forall r, (r < n)%nat -> bsum n (fun b => t r b * vget y b) = vget (g_work g) r).
      { intros r Hr. rewrite <- B2 by auto. rewrite (bsum_split n r) by auto.
        rewrite (bsum_ext r _ (fun _ => 0)) by (intros j Hj; unfold t, triangle; nat_case; ring). rewrite bsum_0.
        rewrite (bsum_ext (n - (r + 1)) (fun j => t r (r + 1 + j)%nat * vget y (r + 1 + j)%nat) (fun c => mget (g_factor g) (r + 1 + c)%nat r * vget y (r + 1 + c)%nat)) by (intros j Hj; unfold t, triangle; cbn [factor s_diag]; nat_case; reflexivity).
        unfold t, triangle. cbn [s_diag]. nat_case. ring. }
      rewrite (bsum_ext n _ (fun b => bsum n (fun r => t r a * (t r b * vget y b)))).
      2:{ intros b Hb. rewrite U2 by auto. rewrite (Rmult_comm (bsum _ _)), <- bsum_scal. apply bsum_ext. intros; ring. }
      rewrite bsum_swap. apply bsum_ext. intros r Hr. rewrite bsum_scal, TS by auto. rewrite SE by auto. reflexivity.
  Qed.

  (** a system that is not singular has no zero on the diagonal of its triangle *)
  Lemma regular_diagonal : ~ singular n (fun a b => bsum n (fun r => T r a * T r b) + (if Nat.eqb a b then D a * D a else 0)) ->
    forall r, (r < n)%nat -> triangle (snd out) r r <> 0.
  Proof.
    intros NS. destruct (first_zero (fun r => triangle (snd out) r r) n) as [|(k & K1 & K2 & K3)]; auto. exfalso. apply NS.
    destruct (upper_zero_kernel n (triangle (snd out)) k K1 K2 K3) as (v & V1 & V2). exists v. split; [exists k; auto|].
    intros a Ha. unfold times. destruct solve_factor as [F _].
    rewrite (bsum_ext n _ (fun b => bsum n (fun r => triangle (snd out) r a * (triangle (snd out) r b * v b)))).
    2:{ intros b Hb. rewrite <- F by auto. rewrite (Rmult_comm (bsum _ _)), <- bsum_scal. apply bsum_ext. intros; ring. }
    rewrite bsum_swap. rewrite (bsum_ext n _ (fun _ => 0)); [apply bsum_0|]. intros r Hr. rewrite bsum_scal.
    specialize (V2 r Hr). rewrite (bsum_ext n _ (fun b => (if Nat.ltb b r then 0 else triangle (snd out) r b) * v b)).
    - rewrite V2. ring.
    - intros b Hb. destruct (Nat.ltb_spec b r); auto. unfold triangle. nat_case; try reflexivity; lia.
  Qed.
End Solve.

(** ** The triangle's own solve *)
Lemma factor_solve_spec n (f : @damped_factor R) rhs : length rhs = n -> (forall r, (r < n)%nat -> vget (s_diag f) r <> 0) ->
  length (damped_factor_solve n f rhs) = n /\
  forall c, (c < n)%nat -> bsum n (fun r => triangle f r c * vget (damped_factor_solve n f rhs) r) = vget rhs c.
Proof.
  intros L N. unfold damped_factor_solve.
  match goal with |- length ?x = n /\ _ => enough (G : length x = n /\ forall c, (c < n)%nat -> (if Nat.ltb c n then vget (s_diag f) c * vget x c else vget x c) + bsum (Nat.min c n) (fun r => mget (factor f) c r * vget x r) = vget rhs c) end.
  { destruct G as [G1 G2]. split; auto. intros c Hc. rewrite <- G2 by auto. rewrite (bsum_split n c) by auto.
    rewrite (bsum_ext (n - (c + 1)) _ (fun _ => 0)) by (intros j Hj; unfold triangle; nat_case; ring). rewrite bsum_0.
    rewrite Nat.min_l by lia. match goal with |- ?p + _ + _ = _ => set (s := p) end.
    replace s with (bsum c (fun r => mget (factor f) c r * vget (fold_left (fun rhs j =>
      let rhs := set_nth rhs j (if negb (eqb (vget (s_diag f) j) zero) then div (vget rhs j) (vget (s_diag f) j) else zero) in
      let temp := vget rhs j in
      fold_left (fun rhs i => set_nth rhs i (sub (vget rhs i) (mul (mget (factor f) i j) temp))) (range (j + 1) n) rhs)
      (range 0 n) rhs) r)).
    - unfold triangle at 1. nat_case. ring.
    - apply bsum_ext. intros r Hr. unfold triangle. nat_case. reflexivity. }
  apply (for_loop (fun k (x : list R) => length x = n /\ forall c, (c < n)%nat ->
    (if Nat.ltb c k then vget (s_diag f) c * vget x c else vget x c) + bsum (Nat.min c k) (fun r => mget (factor f) c r * vget x r) = vget rhs c)).
  - lia.
  - split; auto. intros c Hc. rewrite Nat.min_0_r. cbn. ring.
  - intros k x Hk [X1 X2]. rnum. specialize (N k ltac:(lia)). rdecide. cbn [negb].
    set (x' := set_nth x k (vget x k / vget (s_diag f) k)). assert (L' : length x' = n) by (unfold x'; rewrite set_nth_length; auto).
    set (t := vget x' k).
    match goal with |- length ?z = n /\ _ => assert (G : length z = n /\ forall i, vget z i = if (Nat.leb (k + 1) i && Nat.ltb i n)%bool then vget x' i - mget (factor f) i k * t else vget x' i) end.
    { apply (for_loop (fun m (z : list R) => length z = n /\ forall i, vget z i = if (Nat.leb (k + 1) i && Nat.ltb i m)%bool then vget x' i - mget (factor f) i k * t else vget x' i)).
      - lia.
      - split; auto. intros i. nat_case; cbn [andb]; try reflexivity; lia.
      - intros m z Hm [Z1 Z2]. split; [rewrite set_nth_length; auto|]. intros i. rewrite vget_set' by lia. rewrite !Z2. nat_case; subst; cbn [andb]; try reflexivity; lia. }
    destruct G as [G1 G2]. match goal with |- length ?z = n /\ _ => set (y := z) in * end. split; auto. intros c Hc.
    assert (XK : forall i, vget x' i = if Nat.eqb i k then vget x k / vget (s_diag f) k else vget x i) by (intros i; unfold x'; apply vget_set'; lia).
    specialize (X2 c Hc). destruct (Nat.lt_ge_cases k c) as [KC|KC].
    + rewrite Nat.min_r in * by lia. cbn [bsum].
      rewrite (bsum_ext k _ (fun r => mget (factor f) c r * vget x r)) by (intros r Hr; rewrite G2, XK; nat_case; cbn [andb]; try reflexivity; lia).
      revert X2. rewrite !G2. unfold t. rewrite !XK. nat_case; cbn [andb]; intros X2; try lia. lra.
    + rewrite Nat.min_l in * by lia. 
      rewrite (bsum_ext c _ (fun r => mget (factor f) c r * vget x r)) by (intros r Hr; rewrite G2, XK; nat_case; cbn [andb]; try reflexivity; lia).
      revert X2. rewrite !G2, !XK. destruct (Nat.eq_dec c k) as [->|].
      * nat_case; cbn [andb]; intros X2; try lia. rewrite <- X2. field. auto.
      * nat_case; cbn [andb]; intros X2; try lia. exact X2.
Qed.

(** Facts about IEEE operations used by several proofs: a finite result comes from finite operands and
    is the rounded exact result; the comparison of non-NaN numbers is a total order. *)
From Coq Require Import ZArith Reals Lia Lra Bool.
From Flocq Require Import Core IEEE754.BinarySingleNaN Plus_error Relative.
From Verif Require Import Base.Scalar Base.FNum.

Section Ops.
  Context (prec emax : Z).
  Context {Hp : Prec_gt_0 prec} {He : Prec_lt_emax prec emax}.
  Notation fl := (binary_float prec emax).
  Notation rnd := (Generic_fmt.round radix2 (SpecFloat.fexp prec emax) (round_mode mode_NE)).

  Lemma overflow_not_finite (x : fl) s : B2SF x = binary_overflow prec emax mode_NE s -> ffinite x = false.
  Proof. destruct x; cbn; try discriminate; reflexivity. Qed.

  Lemma fplus_finite (x y : fl) : ffinite (Bplus mode_NE x y) = true ->
    ffinite x = true /\ ffinite y = true /\ B2R (Bplus mode_NE x y) = rnd (B2R x + B2R y).
  Proof.
    intros H.
    assert (F : ffinite x = true /\ ffinite y = true).
    { destruct x as [sx|sx| |sx mx ex Bx], y as [sy|sy| |sy my ey By]; cbn in H |- *;
        try discriminate; auto; try (destruct (Bool.eqb sx sy); discriminate). }
    destruct F as [Fx Fy]. split; [exact Fx|]. split; [exact Fy|].
    pose proof (Bplus_correct prec emax Hp He mode_NE x y Fx Fy) as K.
    destruct (Rlt_bool _ _); [apply K|]. destruct K as [K _].
    apply overflow_not_finite in K. congruence.
  Qed.

  Lemma fminus_finite (x y : fl) : ffinite (Bminus mode_NE x y) = true ->
    ffinite x = true /\ ffinite y = true /\ B2R (Bminus mode_NE x y) = rnd (B2R x - B2R y).
  Proof.
    intros H.
    assert (F : ffinite x = true /\ ffinite y = true).
    { destruct x as [sx|sx| |sx mx ex Bx], y as [sy|sy| |sy my ey By]; cbn in H |- *;
        try discriminate; auto; try (destruct (Bool.eqb sx (negb sy)); discriminate). }
    destruct F as [Fx Fy]. split; [exact Fx|]. split; [exact Fy|].
    pose proof (Bminus_correct prec emax Hp He mode_NE x y Fx Fy) as K.
    destruct (Rlt_bool _ _); [apply K|]. destruct K as [K _].
    apply overflow_not_finite in K. congruence.
  Qed.

  Lemma fmult_finite (x y : fl) : ffinite (Bmult mode_NE x y) = true ->
    ffinite x = true /\ ffinite y = true /\ B2R (Bmult mode_NE x y) = rnd (B2R x * B2R y).
  Proof.
    intros H.
    assert (F : ffinite x = true /\ ffinite y = true).
    { destruct x as [sx|sx| |sx mx ex Bx], y as [sy|sy| |sy my ey By]; cbn in H |- *;
        try discriminate; auto. }
    destruct F as [Fx Fy]. split; [exact Fx|]. split; [exact Fy|].
    pose proof (Bmult_correct prec emax Hp He mode_NE x y) as K.
    destruct (Rlt_bool _ _); [apply K|].
    apply overflow_not_finite in K. congruence.
  Qed.

  Lemma format_B2R (x : fl) : generic_format radix2 (SpecFloat.fexp prec emax) (B2R x).
  Proof. apply generic_format_B2R. Qed.

  (** one rounded addition of floats: relative error u, no exception for subnormals *)
  Lemma fplus_error (x y : fl) : ffinite (Bplus mode_NE x y) = true ->
    (Rabs (B2R (Bplus mode_NE x y) - (B2R x + B2R y)) <= bpow radix2 (- prec) * Rabs (B2R x + B2R y))%R.
  Proof.
    intros H. destruct (fplus_finite x y H) as (_ & _ & ->).
    destruct (FLT_plus_error_N_ex radix2 (SpecFloat.emin prec emax) prec (fun z => negb (Z.even z)) (B2R x) (B2R y))
      as [eps [He1 He2]].
    { apply format_B2R. }
    { apply format_B2R. }
    change (Generic_fmt.round radix2 (SpecFloat.fexp prec emax) (round_mode mode_NE) (B2R x + B2R y))
      with (Generic_fmt.round radix2 (FLT_exp (SpecFloat.emin prec emax) prec) (Znearest (fun z => negb (Z.even z))) (B2R x + B2R y)).
    rewrite He2.
    replace ((B2R x + B2R y) * (1 + eps) - (B2R x + B2R y))%R with (eps * (B2R x + B2R y))%R by ring.
    rewrite Rabs_mult. apply Rmult_le_compat_r; [apply Rabs_pos|].
    apply Rle_trans with (1 := He1).
    unfold u_ro. replace (/ 2 * bpow radix2 (- prec + 1))%R with (bpow radix2 (- prec)).
    - set (u := bpow radix2 (- prec)). assert (0 < u)%R by apply bpow_gt_0.
      apply Rmult_le_reg_r with (1 + u)%R; [lra|]. unfold Rdiv. rewrite Rmult_assoc, Rinv_l by lra. nra.
    - rewrite bpow_plus. change (bpow radix2 1) with 2%R. field.
  Qed.

  (** order *)
  Definition notnan (x : fl) : Prop := BinarySingleNaN.is_nan x = false.

  Lemma fleb_refl (x : fl) : notnan x -> Bleb x x = true.
  Proof.
    unfold notnan. destruct x as [s|s| |s m e B]; cbn; try discriminate; intros _; try (destruct s; reflexivity).
    unfold Bleb, SpecFloat.SFleb. cbn. destruct s; rewrite Z.compare_refl, Pos.compare_refl; reflexivity.
  Qed.
End Ops.

(** Order and limiting. *)
Section Limit.
  Context (prec emax : Z).
  Notation fl := (binary_float prec emax).

  Lemma fcompare_none (x y : fl) : notnan prec emax x -> notnan prec emax y -> Bcompare x y <> None.
  Proof.
    unfold notnan. destruct x as [s|s| |s m e B], y as [s'|s'| |s' m' e' B']; cbn; try discriminate; intros _ _;
      destruct s; try destruct s'; try discriminate; destruct (Z.compare e e'); discriminate.
  Qed.
  Lemma fnlt_le (x y : fl) : notnan prec emax x -> notnan prec emax y -> Bltb x y = false -> Bleb y x = true.
  Proof.
    intros Hx Hy. pose proof (fcompare_none x y Hx Hy) as N. pose proof (Bcompare_swap prec emax x y) as S.
    unfold Bltb, Bleb, SpecFloat.SFltb, SpecFloat.SFleb. unfold Bcompare in *.
    destruct (SpecFloat.SFcompare (B2SF x) (B2SF y)) as [[| |] |]; rewrite S; cbn; congruence.
  Qed.
  Lemma flt_le (x y : fl) : Bltb x y = true -> Bleb x y = true.
  Proof.
    unfold Bltb, Bleb, SpecFloat.SFltb, SpecFloat.SFleb.
    destruct (SpecFloat.SFcompare (B2SF x) (B2SF y)) as [[| |] |]; congruence.
  Qed.
  Lemma flimit (u lo hi : fl) : notnan prec emax lo -> notnan prec emax hi -> Bleb lo hi = true ->
    Bleb lo (fmin prec emax (fmax prec emax u lo) hi) = true /\ Bleb (fmin prec emax (fmax prec emax u lo) hi) hi = true.
  Proof.
    intros Hlo Hhi L.
    assert (M : exists v, fmax prec emax u lo = v /\ notnan prec emax v /\ Bleb lo v = true).
    { unfold fmax. unfold notnan in *. rewrite Hlo. destruct (BinarySingleNaN.is_nan u) eqn:Nu.
      - exists lo. split; [reflexivity |]. split; [exact Hlo |]. apply fleb_refl. exact Hlo.
      - destruct (Bltb u lo) eqn:C.
        + exists lo. split; [reflexivity |]. split; [exact Hlo |]. apply fleb_refl. exact Hlo.
        + exists u. split; [reflexivity |]. split; [exact Nu |]. apply fnlt_le; auto. }
    destruct M as (v & -> & Nv & Lv). unfold fmin. unfold notnan in *. rewrite Nv, Hhi.
    destruct (Bltb hi v) eqn:C.
    - split; [exact L |]. apply fleb_refl. exact Hhi.
    - split; [exact Lv |]. apply fnlt_le; auto.
  Qed.
End Limit.

(** The midpoint of a bracket of floats stays in the bracket unless its width overflows. *)
From Coq Require Import ZArith Reals Lia Lra Bool.
From Flocq Require Import Core IEEE754.BinarySingleNaN Plus_error Relative.
From Verif Require Import Base.Scalar Base.FNum Base.FloatOps Model.Errors Model.RootFinding Proofs.RootFinding.
Local Open Scope R_scope.

Section Mid.
  Context (prec emax : Z).
  Context {Hp : Prec_gt_0 prec} {He : Prec_lt_emax prec emax}.
  Notation fl := (binary_float prec emax).
  Notation fexp := (SpecFloat.fexp prec emax).
  Notation rnd := (Generic_fmt.round radix2 fexp (round_mode mode_NE)).
  Notation rdn := (Generic_fmt.round radix2 fexp Zfloor).
  Context (hf : fl) (Hhf : ffinite hf = true) (Hh : B2R hf = / 2).

  #[local] Instance fexp_valid : Valid_exp fexp := fexp_correct prec emax Hp.
  #[local] Instance fexp_mono : Monotone_exp fexp := fexp_monotone prec emax.
  #[local] Instance rnd_valid : Valid_rnd (round_mode mode_NE) := valid_rnd_round_mode mode_NE.

  Lemma format_double x : generic_format radix2 fexp x -> generic_format radix2 fexp (2 * x).
  Proof.
    intros F. replace (2 * x) with (x * bpow radix2 1) by (cbn; ring).
    change (generic_format radix2 (FLT_exp (3 - emax - prec) prec) x) in F. change (generic_format radix2 (FLT_exp (3 - emax - prec) prec) (x * bpow radix2 1)).
    apply FLT_format_generic in F; [|exact Hp]. destruct F as [[m e] E1 E2 E3]. apply (generic_format_FLT radix2 (3 - emax - prec) prec).
    exists (Float radix2 m (e + 1)).
    - rewrite E1. unfold F2R. cbn [Fnum Fexp]. rewrite bpow_plus. ring.
    - exact E2.
    - cbn [Fexp] in *. lia.
  Qed.

  Lemma half_width (l u : R) : generic_format radix2 fexp l -> generic_format radix2 fexp u -> l <= u ->
    0 <= rnd (u - l) /\ 0 <= rnd (rnd (u - l) * / 2) <= u - l /\ rnd (rnd (u - l) * / 2) <= rnd (u - l).
  Proof.
    intros Fl Fu O.
    assert (D0 : 0 <= rnd (u - l)) by (apply round_ge_generic; auto using generic_format_0; try typeclasses eauto; lra).
    assert (H0 : 0 <= rnd (rnd (u - l) * / 2)) by (apply round_ge_generic; auto using generic_format_0; try typeclasses eauto; lra).
    split; [exact D0|]. split; [split; [exact H0|]|].
    - destruct (Req_dec (u - l) 0) as [E|E].
      + rewrite E. rewrite round_0 by typeclasses eauto. rewrite Rmult_0_l, round_0 by typeclasses eauto. lra.
      + set (g := rdn (u - l)).
        assert (Gf : generic_format radix2 fexp g) by (apply generic_format_round; typeclasses eauto).
        assert (Gu : g <= u - l) by apply round_DN_pt, fexp_valid.
        assert (G0 : 0 <= g) by (apply round_ge_generic; auto using generic_format_0; try typeclasses eauto; lra).
        assert (Gn : g <> 0).
        { unfold g. replace (u - l) with (u + - l) in * by ring. apply round_plus_neq_0; auto; try typeclasses eauto. apply generic_format_opp; auto. }
        assert (W : u - l <= 2 * g).
        { destruct (Rle_or_lt (u - l) (2 * g)); auto.
          assert (2 * g <= g); [|lra]. unfold g at 2. apply round_ge_generic; try typeclasses eauto. apply format_double; auto. lra. }
        assert (W2 : rnd (u - l) <= 2 * g) by (apply round_le_generic; try typeclasses eauto; auto using format_double).
        apply Rle_trans with g; auto. apply round_le_generic; try typeclasses eauto; auto. lra.
    - apply round_le_generic; try typeclasses eauto. apply generic_format_round; typeclasses eauto. lra.
  Qed.

  (** a finite float bracket whose width is finite *)
  Definition fbracket (l u : fl) : Prop :=
    ffinite l = true /\ ffinite u = true /\ B2R l <= B2R u /\ ffinite (Bminus mode_NE u l) = true.

  Lemma fbracket_iff l u : ffinite l = true -> ffinite u = true -> B2R l <= B2R u ->
    (ffinite (Bminus mode_NE u l) = true <-> rnd (B2R u - B2R l) < bpow radix2 emax).
  Proof.
    intros Fl Fu O. pose proof (Bminus_correct prec emax Hp He mode_NE u l Fu Fl) as K.
    destruct (half_width _ _ (generic_format_B2R prec emax l) (generic_format_B2R prec emax u) O) as (D0 & _).
    rewrite Rabs_right in K by lra. destruct (Rlt_bool_spec (rnd (B2R u - B2R l)) (bpow radix2 emax)) as [L|L].
    - split; [intros _; exact L|intros _; apply K].
    - split; intros H; [|lra]. destruct K as [K _]. apply overflow_not_finite in K. congruence.
  Qed.

  Lemma fmid_in l u : fbracket l u ->
    let mid := Bplus mode_NE l (Bmult mode_NE (Bminus mode_NE u l) hf) in
    ffinite mid = true /\ B2R l <= B2R mid <= B2R u.
  Proof.
    intros (Fl & Fu & O & Fd). cbv zeta. destruct (fminus_finite _ _ _ _ Fd) as (_ & _ & Ed).
    destruct (half_width _ _ (generic_format_B2R prec emax l) (generic_format_B2R prec emax u) O) as (D0 & [H0 H1] & H2).
    pose proof (Bmult_correct prec emax Hp He mode_NE (Bminus mode_NE u l) hf) as K. rewrite Hh, Ed in K.
    pose proof (proj1 (fbracket_iff l u Fl Fu O) Fd) as Lt.
    rewrite Rabs_right in K by lra. rewrite Rlt_bool_true in K by lra. destruct K as (Em & Fm & _). rewrite Fd, Hhf in Fm. cbn in Fm.
    pose proof (Bplus_correct prec emax Hp He mode_NE l (Bmult mode_NE (Bminus mode_NE u l) hf) Fl Fm) as P. rewrite Em in P.
    set (h := rnd (rnd (B2R u - B2R l) * / 2)) in *.
    assert (L1 : B2R l <= rnd (B2R l + h)) by (apply round_ge_generic; try typeclasses eauto; [apply generic_format_B2R|lra]).
    assert (L2 : rnd (B2R l + h) <= B2R u) by (apply round_le_generic; try typeclasses eauto; [apply generic_format_B2R|lra]).
    rewrite Rlt_bool_true in P. { destruct P as (-> & -> & _). auto. }
    pose proof (abs_B2R_lt_emax prec emax l). pose proof (abs_B2R_lt_emax prec emax u).
    apply Rabs_def1. apply Rabs_def2 in H3. lra. apply Rabs_def2 in H. lra.
  Qed.

  Lemma fmid_split l u : fbracket l u ->
    let mid := Bplus mode_NE l (Bmult mode_NE (Bminus mode_NE u l) hf) in fbracket l mid /\ fbracket mid u.
  Proof.
    intros H mid. destruct (fmid_in l u H) as (Fm & L1 & L2). fold mid in Fm, L1, L2. destruct H as (Fl & Fu & O & Fd).
    pose proof (proj1 (fbracket_iff l u Fl Fu O) Fd) as Lt.
    split; (split; [assumption|split; [assumption|split; [assumption|]]]); apply fbracket_iff; auto;
      eapply Rle_lt_trans; try exact Lt; apply round_le; try typeclasses eauto; lra.
  Qed.
End Mid.

Lemma half64 : ffinite (F64 1 (-1)) = true /\ B2R (F64 1 (-1)) = / 2.
Proof. split; [reflexivity|]. rewrite <- (SF2R_B2SF _ _ (F64 1 (-1))). vm_compute (B2SF _). unfold SF2R, F2R. cbn. lra. Qed.
Lemma half32 : ffinite (F32 1 (-1)) = true /\ B2R (F32 1 (-1)) = / 2.
Proof. split; [reflexivity|]. rewrite <- (SF2R_B2SF _ _ (F32 1 (-1))). vm_compute (B2SF _). unfold SF2R, F2R. cbn. lra. Qed.

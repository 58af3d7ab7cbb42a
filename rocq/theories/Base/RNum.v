(** The exact-real instance of the scalar interface.

    Rounding is ignored.  R has no infinities and no NaN: [is_finite] is always true and the three
    constants are an arbitrary number that no theorem over R is allowed to rely on (theorems about
    them use [XNum] or [FNum]). *)
From Coq Require Import ZArith Reals Lra Lia Bool.
From Flocq Require Import Core.Raux.
From Verif Require Import Base.Scalar.
Local Open Scope R_scope.

Definition Rltb (x y : R) : bool := if Rlt_dec x y then true else false.
Definition Rleb (x y : R) : bool := if Rle_dec x y then true else false.
Definition Reqb (x y : R) : bool := if Req_EM_T x y then true else false.

Definition Rcopysign (x s : R) : R := if Rlt_dec s 0 then - Rabs x else Rabs x.
Definition Rround_away (x : R) : R :=
  if Rlt_dec x 0 then - IZR (Zfloor (- x + /2)) else IZR (Zfloor (x + /2)).
Definition Rcbrt (x : R) : R :=
  if Req_EM_T x 0 then 0 else if Rlt_dec x 0 then - Rpower (- x) (/3) else Rpower x (/3).
Definition Ratan2 (y x : R) : R :=
  if Rlt_dec 0 x then Ratan.atan (y / x)
  else if Rlt_dec x 0 then
    (if Rlt_dec y 0 then Ratan.atan (y / x) - PI else Ratan.atan (y / x) + PI)
  else if Rlt_dec 0 y then PI / 2 else if Rlt_dec y 0 then - (PI / 2) else 0.
Definition Rsignum (x : R) : R := if Rlt_dec x 0 then -1 else 1.
Definition two64m1 : Z := (2 ^ 64 - 1)%Z.

#[global] Instance Rnum : Num R := {|
  zero := 0; one := 1; two := 2; three := 3; half := /2; ten := 10; hundred := 100;
  one_eighty := 180; pi := PI; two_pi := PI * 2;
  epsilon := / IZR (2^52); epsilon_x4 := 4 / IZR (2^52); epsilon_x30 := 30 / IZR (2^52);
  nan := 0; infinity := 0; neg_infinity := 0;
  max_value := IZR (2^53 - 1) * IZR (2^971); min_positive := / IZR (2^1022);
  of_Z := IZR; of_ratio n d := IZR n / IZR d;
  to_usize x := Z.min (Z.max 0 (Ztrunc x)) two64m1;
  add := Rplus; sub := Rminus; mul := Rmult; div := Rdiv; neg := Ropp;
  abs := Rabs; sqrt := R_sqrt.sqrt; cbrt := Rcbrt; sin := Rtrigo_def.sin; cos := Rtrigo_def.cos;
  tan := Rtrigo1.tan; exp := Rtrigo_def.exp; log := ln;
  expm1 x := Rtrigo_def.exp x - 1; ln_1p x := ln (1 + x);
  log2 x := ln x / ln 2; log10 x := ln x / ln 10; atan2 := Ratan2;
  copysign := Rcopysign; floor x := IZR (Zfloor x); ceil x := IZR (Zceil x);
  round := Rround_away; trunc x := IZR (Ztrunc x);
  clamp x lo hi := if Rleb lo hi then Some (Rmin (Rmax x lo) hi) else None;
  signum := Rsignum; max := Rmax; min := Rmin;
  atan := Ratan.atan; asin := Ratan.asin; acos := Ratan.acos;
  sinh := Rtrigo_def.sinh; cosh := Rtrigo_def.cosh; tanh := Rtrigo_def.tanh;
  hypot x y := R_sqrt.sqrt (x * x + y * y); powf := Rpower;
  mul_add x a b := x * a + b; recip x := / x;
  is_nan _ := false; is_finite _ := true; is_infinite _ := false;
  eqb := Reqb; ltb := Rltb; leb := Rleb
|}.

Lemma Rltb_true x y : Rltb x y = true <-> x < y.
Proof. unfold Rltb; destruct (Rlt_dec x y); split; intros; auto; congruence. Qed.
Lemma Rltb_false x y : Rltb x y = false <-> y <= x.
Proof. unfold Rltb; destruct (Rlt_dec x y); split; intros; try congruence; lra. Qed.
Lemma Rleb_true x y : Rleb x y = true <-> x <= y.
Proof. unfold Rleb; destruct (Rle_dec x y); split; intros; auto; congruence. Qed.
Lemma Rleb_false x y : Rleb x y = false <-> y < x.
Proof. unfold Rleb; destruct (Rle_dec x y); split; intros; try congruence; lra. Qed.
Lemma Reqb_true x y : Reqb x y = true <-> x = y.
Proof. unfold Reqb; destruct (Req_EM_T x y); split; intros; auto; congruence. Qed.
Lemma Reqb_false x y : Reqb x y = false <-> x <> y.
Proof. unfold Reqb; destruct (Req_EM_T x y); split; intros; auto; congruence. Qed.

(** Turn the interface's operations at R into the standard library's. *)
Ltac rnum :=
  cbn [zero one two three half ten hundred one_eighty pi two_pi epsilon epsilon_x4 epsilon_x30
       of_Z of_ratio to_usize add sub mul div neg abs sqrt cbrt sin cos tan exp log expm1 ln_1p log2 log10 atan2
       copysign floor ceil round trunc clamp signum max min atan asin acos sinh cosh tanh hypot powf
       mul_add recip is_nan is_finite is_infinite eqb ltb leb Rnum] in *.

(** Destruct every boolean comparison of reals in the goal and hypotheses. *)
Ltac rcase1 :=
  match goal with
  | H : Rltb _ _ = true |- _ => apply Rltb_true in H
  | H : Rltb _ _ = false |- _ => apply Rltb_false in H
  | H : Rleb _ _ = true |- _ => apply Rleb_true in H
  | H : Rleb _ _ = false |- _ => apply Rleb_false in H
  | H : Reqb _ _ = true |- _ => apply Reqb_true in H
  | H : Reqb _ _ = false |- _ => apply Reqb_false in H
  | H : andb _ _ = true |- _ => apply andb_true_iff in H; destruct H
  | H : orb _ _ = false |- _ => apply orb_false_iff in H; destruct H
  | H : negb _ = true |- _ => apply negb_true_iff in H
  | H : negb _ = false |- _ => apply negb_false_iff in H
  end.
Ltac rcases := repeat rcase1.
Ltac rdestruct :=
  repeat match goal with
  | |- context [if ?b then _ else _] => let E := fresh "E" in destruct b eqn:E
  | H : context [if ?b then _ else _] |- _ => let E := fresh "E" in destruct b eqn:E
  end; rcases.

(** Split on comparisons inside [Rmin]/[Rmax]/[Rabs]/[if Rle_dec], innermost first. *)
Ltac rle1 :=
  match goal with
  | |- context [Rle_dec ?a ?b] =>
      lazymatch a with context [Rle_dec] => fail | _ =>
      lazymatch b with context [Rle_dec] => fail | _ => destruct (Rle_dec a b) end end
  | |- context [Rlt_dec ?a ?b] =>
      lazymatch a with context [Rlt_dec] => fail | _ =>
      lazymatch b with context [Rlt_dec] => fail | _ => destruct (Rlt_dec a b) end end
  | |- context [Rcase_abs ?a] =>
      lazymatch a with context [Rcase_abs] => fail | _ => destruct (Rcase_abs a) end
  end.
Ltac rle := unfold Rmin, Rmax, Rabs; repeat rle1.

(** Equality of two lists of closed real expressions. *)
Ltac rlist := repeat (match goal with |- cons _ _ = cons _ _ => apply f_equal2; [lra || (field; lra) |] end); reflexivity.

(** Decide the comparisons of closed real expressions in the goal. *)
Ltac rdecide :=
  repeat (cbn [negb andb orb]; match goal with
  | |- context [Rltb ?a ?b] => first [rewrite (proj2 (Rltb_true a b)) by lra | rewrite (proj2 (Rltb_false a b)) by lra]
  | |- context [Rleb ?a ?b] => first [rewrite (proj2 (Rleb_true a b)) by lra | rewrite (proj2 (Rleb_false a b)) by lra]
  | |- context [Reqb ?a ?b] => first [rewrite (proj2 (Reqb_true a b)) by lra | rewrite (proj2 (Reqb_false a b)) by lra]
  end).
Ltac rminmax :=
  repeat match goal with
  | |- context [Rmin ?a ?b] => first [rewrite (Rmin_left a b) by lra | rewrite (Rmin_right a b) by lra]
  | |- context [Rmax ?a ?b] => first [rewrite (Rmax_left a b) by lra | rewrite (Rmax_right a b) by lra]
  end.

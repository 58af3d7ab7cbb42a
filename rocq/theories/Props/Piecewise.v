(** C54: curves made of polynomial pieces, over exact arithmetic. *)
From Coq Require Import ZArith List Bool Arith Reals Lra Lia.
From Coquelicot Require Import Coquelicot.
From Verif Require Import Base.Scalar Base.Lists Base.RNum Base.Series Base.PolyR Model.Errors Model.Polynomial Model.Piecewise
  Spec.Polynomial Spec.Piecewise Proofs.Polynomial Proofs.Piecewise.
Import ListNotations.
Local Open Scope R_scope.

(** What a curve can be built from, for any scalar: NaN and infinite spans are refused, like zero and negative ones. *)
Theorem C54_accepts : forall (T : Type) (NT : Num T) (max_pieces : nat) (pieces : list (list (list T))) (spans : list T) (c : Piecewise T),
  piecewise_try_from_pieces max_pieces pieces spans = Ok c <->
  c = {| pw_pieces := pieces; pw_spans := spans |} /\
  (0 < length pieces)%nat /\ length pieces = length spans /\ (length pieces <= max_pieces)%nat /\
  forall s, In s spans -> is_finite s = true /\ leb s zero = false.
Proof.
  intros T NT mp pieces spans c. unfold piecewise_try_from_pieces.
  destruct (Nat.eqb_spec (length pieces) 0) as [E0|E0]; cbn [orb]; [split; [discriminate|intros (_ & ? & _); lia]|].
  destruct (Nat.eqb_spec (length spans) 0) as [E1|E1]; cbn [orb]; [split; [discriminate|intros (_ & ? & ? & _); lia]|].
  destruct (Nat.eqb_spec (length pieces) (length spans)) as [E2|E2]; cbn [orb negb]; [|split; [discriminate|intros (_ & ? & ? & _); lia]].
  destruct (Nat.ltb_spec mp (length pieces)) as [E3|E3]; [split; [discriminate|intros (_ & ? & ? & ? & _); lia]|].
  destruct (existsb _ spans) eqn:E.
  - split; [discriminate|]. intros (_ & _ & _ & _ & H). apply existsb_exists in E. destruct E as (s & Hs & E). destruct (H s Hs) as [F L].
    rewrite F, L in E. discriminate.
  - split.
    + intros X. injection X as <-. repeat split; try lia; intros; destruct (is_finite s) eqn:F, (leb s zero) eqn:L; try reflexivity;
      (assert (X : existsb (fun span => (negb (is_finite span) || leb span zero)%bool) spans = true)
        by (apply existsb_exists; exists s; rewrite F, L; auto); congruence).
    + intros (-> & _). reflexivity.
Qed.

Lemma accepted mp pieces spans c : piecewise_try_from_pieces mp pieces spans = Ok c ->
  c = {| pw_pieces := pieces; pw_spans := spans |} /\ length pieces = length spans /\ (0 < length spans)%nat /\ positive_spans spans.
Proof.
  intros H. apply C54_accepts in H. destruct H as (-> & H0 & Hl & _ & H). repeat split; [exact Hl|lia|].
  intros k Hk. destruct (H (nth k spans 0) (nth_In _ _ Hk)) as [_ L]. apply Rleb_false in L. exact L.
Qed.
Lemma along_last spans : positive_spans spans -> (0 < length spans)%nat -> along spans (length spans - 1) (curve_end spans) = 1.
Proof.
  intros Hp Hn. unfold along, curve_end. destruct (length spans) as [|n] eqn:E; [lia|]. rewrite Nat.sub_succ, Nat.sub_0_r, piece_start_S.
  pose proof (Hp n ltac:(lia)). field. lra.
Qed.
Lemma last_nth {A} (l : list A) d : last l d = nth (length l - 1) l d.
Proof. induction l as [|a l IH]; [reflexivity|]. cbn [last length]. destruct l as [|b l]; [reflexivity|]. rewrite IH. cbn [length nth]. rewrite !Nat.sub_succ, !Nat.sub_0_r. reflexivity. Qed.

(** Inside the curve it is the containing piece on its own clock; outside it holds its ends. *)
Theorem C54_evaluate : forall (max_pieces : nat) (pieces : list (list (list R))) (spans : list R) (c : Piecewise R),
  piecewise_try_from_pieces max_pieces pieces spans = Ok c ->
  piecewise_total_span c = curve_end spans /\
  (forall u, 0 <= u < curve_end spans -> exists! k, covers spans k u) /\
  (forall k u, covers spans k u -> piecewise_evaluate c u = Ok (map (fun p => value_at p (along spans k u)) (nth k pieces []))) /\
  (forall u, u <= 0 -> piecewise_evaluate c u = Ok (map (fun p => value_at p 0) (hd [] pieces))) /\
  (forall u, curve_end spans <= u -> piecewise_evaluate c u = Ok (map (fun p => value_at p 1) (last pieces []))).
Proof.
  intros mp pieces spans c H. destruct (accepted _ _ _ _ H) as (-> & Hl & Hn & Hp). repeat split.
  - unfold piecewise_total_span. cbn [pw_spans]. rewrite total_span_R. rnum. ring.
  - intros u Hu. destruct (covered spans u Hu) as [k Hk]. exists k. split; [exact Hk|]. intros j Hj. apply (covers_unique spans k j u Hp Hk Hj).
  - intros k u Hc. apply evaluate_at; auto; [|apply Hc]. apply locate_inside; auto.
  - intros u Hu. replace (hd [] pieces) with (nth 0 pieces []) by (destruct pieces; reflexivity). apply evaluate_at; auto. apply locate_before; auto.
  - intros u Hu. rewrite last_nth, Hl. apply evaluate_at; auto; [apply locate_after; auto|lia].
Qed.

(** The value of one axis of the curve as a function of the parameter. *)
Definition axis_value (c : Piecewise R) (axis : nat) (u : R) : R :=
  match piecewise_evaluate c u with Ok v => nth axis v 0 | _ => 0 end.

Lemma rows_spec orders spans pieces i a u : length pieces = length spans -> (i < length spans)%nat ->
  piecewise_locate {| pw_pieces := pieces; pw_spans := spans |} u = Some (i, a) ->
  exists rows, piecewise_evaluate_with_derivatives orders {| pw_pieces := pieces; pw_spans := spans |} u = Ok rows /\ length rows = orders /\
  forall m, (m < orders)%nat -> nth m rows [] = map (fun p => INR (fact m) * tay m p a * (1 / nth i spans 0 ^ m)) (nth i pieces []).
Proof.
  intros Hl Hi L. unfold piecewise_evaluate_with_derivatives. rewrite L. cbn [pw_pieces pw_spans].
  rewrite (nth_error_nth' pieces [] (n := i)) by lia. rewrite (nth_error_nth' spans 0 (n := i)) by lia.
  eexists. split; [reflexivity|].
  destruct (gather_orders_spec orders 0 (nth i spans 0) 1 (map (fun p => poly_evaluate_with_derivatives orders p a) (nth i pieces [])) eq_refl) as [G1 G2].
  split; [exact G1|]. intros m Hm. etransitivity; [apply (G2 m Hm)|]. rewrite map_map. apply map_ext. intros p.
  destruct (evaluate_with_derivatives_R orders p a) as [_ E]. rewrite Nat.add_0_l. rewrite E by exact Hm. reflexivity.
Qed.
Lemma nth_map_lt {A B} (f : A -> B) l k d e : (k < length l)%nat -> nth k (map f l) e = f (nth k l d).
Proof. intros H. rewrite (nth_indep _ e (f d)) by (rewrite map_length; exact H). apply map_nth. Qed.

(** [evaluate_with_derivatives] reports every derivative against the shared parameter: of the containing piece, at the
    two ends of the end pieces, and (inside a piece) of the curve [evaluate] itself. *)
Theorem C54_derivatives : forall (max_pieces orders : nat) (pieces : list (list (list R))) (spans : list R) (c : Piecewise R),
  piecewise_try_from_pieces max_pieces pieces spans = Ok c ->
  let n := length spans in
  let reports u k at_ := exists rows, piecewise_evaluate_with_derivatives orders c u = Ok rows /\ length rows = orders /\
     forall m, (m < orders)%nat -> length (nth m rows []) = length (nth k pieces []) /\
     forall axis, (axis < length (nth k pieces []))%nat ->
       is_derive_n (fun v => value_at (nth axis (nth k pieces []) []) (along spans k v)) m at_ (nth axis (nth m rows []) 0) in
  (forall k u, covers spans k u -> reports u k u) /\
  (forall u, u <= 0 -> reports u 0%nat 0) /\
  (forall u, curve_end spans <= u -> reports u (n - 1)%nat (curve_end spans)) /\
  (forall k u rows m axis, covers spans k u -> piece_start spans k < u -> piecewise_evaluate_with_derivatives orders c u = Ok rows ->
     (m < orders)%nat -> (axis < length (nth k pieces []))%nat -> is_derive_n (axis_value c axis) m u (nth axis (nth m rows []) 0)).
Proof.
  intros mp orders pieces spans c H. destruct (accepted _ _ _ _ H) as (-> & Hl & Hn & Hp). intros n reports.
  assert (Rep : forall u k at_, (k < length spans)%nat -> piecewise_locate {| pw_pieces := pieces; pw_spans := spans |} u = Some (k, along spans k at_) -> reports u k at_).
  { intros u k at_ Hk L. destruct (rows_spec orders spans pieces k _ u Hl Hk L) as (rows & E & Lr & N). exists rows. split; [exact E|]. split; [exact Lr|].
    intros m Hm. rewrite (N m Hm), map_length. split; [reflexivity|]. intros axis Hx. rewrite (nth_map_lt _ _ _ []) by exact Hx.
    unfold along. apply derive_scaled. pose proof (Hp k Hk). lra. }
  assert (In1 : forall k u, covers spans k u -> reports u k u).
  { intros k u Hc. apply Rep; [apply Hc|]. apply locate_inside; auto. }
  repeat split.
  - exact In1.
  - intros u Hu. apply Rep; [lia|]. rewrite locate_before; auto. f_equal. f_equal. unfold along. rewrite piece_start_0. pose proof (Hp 0%nat Hn). field. lra.
  - intros u Hu. apply Rep; [lia|]. rewrite locate_after; auto. f_equal. f_equal. symmetry. apply along_last; auto.
  - intros k u rows m axis Hc Hlo E Hm Hx. destruct (In1 k u Hc) as (rows' & E' & _ & N). rewrite E in E'. injection E' as <-.
    destruct (N m Hm) as [_ D]. specialize (D axis Hx). refine (is_derive_n_ext_loc _ _ m u _ _ D).
    destruct Hc as [Hk [_ Hhi]].
    assert (0 < Rmin (u - piece_start spans k) (piece_start spans (S k) - u)) as He by (apply Rmin_pos; lra).
    exists (mkposreal _ He). intros v Hv. change (Rabs (v - u) < Rmin (u - piece_start spans k) (piece_start spans (S k) - u)) in Hv.
    apply Rabs_def2 in Hv. pose proof (Rmin_l (u - piece_start spans k) (piece_start spans (S k) - u)). pose proof (Rmin_r (u - piece_start spans k) (piece_start spans (S k) - u)).
    assert (Hcv : covers spans k v) by (split; [exact Hk|lra]).
    unfold axis_value. destruct (C54_evaluate mp pieces spans _ H) as (_ & _ & Ev & _). rewrite (Ev k v Hcv).
    rewrite (nth_map_lt _ _ _ []) by exact Hx. reflexivity.
Qed.

(** The curve of the [m]-th slope evaluates to the [m]-th derivative row, for every parameter. *)
Theorem C54_nth_derivative : forall (max_pieces size m : nat) (pieces : list (list (list R))) (spans : list R) (c : Piecewise R) (u : R),
  piecewise_try_from_pieces max_pieces pieces spans = Ok c ->
  (forall piece p, In piece pieces -> In p piece -> length p = size) ->
  exists rows, piecewise_evaluate_with_derivatives (S m) c u = Ok rows /\
  piecewise_evaluate (piecewise_nth_derivative size m c) u = Ok (nth m rows []).
Proof.
  intros mp size m pieces spans c u H Hsz. destruct (accepted _ _ _ _ H) as (-> & Hl & Hn & Hp).
  set (c := {| pw_pieces := pieces; pw_spans := spans |}).
  set (c' := piecewise_nth_derivative size m c).
  assert (Hl' : length (pw_pieces c') = length spans).
  { unfold c', piecewise_nth_derivative, c. cbn [pw_pieces pw_spans]. rewrite map_length, combine_length. lia. }
  assert (Hc' : c' = {| pw_pieces := pw_pieces c'; pw_spans := spans |}) by reflexivity.
  assert (Same : forall i a, (i < length spans)%nat -> piecewise_locate c u = Some (i, a) -> piecewise_locate c' u = Some (i, a) ->
    exists rows, piecewise_evaluate_with_derivatives (S m) c u = Ok rows /\ piecewise_evaluate c' u = Ok (nth m rows [])).
  { intros i a Hi L L'. destruct (rows_spec (S m) spans pieces i a u Hl Hi L) as (rows & E & _ & N). exists rows. split; [exact E|].
    rewrite (N m ltac:(lia)). rewrite Hc' in L' |- *. rewrite (evaluate_at (pw_pieces c') spans Hl' Hn Hp u i a L' Hi).
    f_equal. unfold c', piecewise_nth_derivative, c. cbn [pw_pieces pw_spans].
    assert (Hi' : (i < length pieces)%nat) by lia.
    erewrite (nth_map_lt _ _ _ ([], 0)) by (rewrite combine_length; lia). rewrite combine_nth by exact Hl. rewrite map_map.
    apply map_ext_in. intros p Hp0. rewrite value_at_peval, scale_R, nth_derivative_R. rnum.
    destruct (Nat.lt_ge_cases m size) as [Hlt|Hge].
    - replace (Nat.min m size) with m by lia.
      assert (E1 : forall j, Nat.iter j (fun raised : R => raised * nth i spans 0) 1 = nth i spans 0 ^ j).
      { induction j as [|j IH]; [reflexivity|]. change (Nat.iter j (fun raised : R => raised * nth i spans 0) 1 * nth i spans 0 = nth i spans 0 * nth i spans 0 ^ j). rewrite IH. ring. }
      rewrite E1. ring.
    - rewrite (tay_over p) by (rewrite (Hsz (nth i pieces []) p (nth_In _ _ Hi') Hp0); exact Hge). ring. }
  destruct (Rle_lt_dec u 0) as [Hu|Hu].
  - apply (Same 0%nat 0); [exact Hn| |]; [unfold c|rewrite Hc']; apply locate_before; auto.
  - destruct (Rle_lt_dec (curve_end spans) u) as [Hu'|Hu'].
    + apply (Same (length spans - 1)%nat 1); [lia| |]; [unfold c|rewrite Hc']; apply locate_after; auto.
    + destruct (covered spans u ltac:(lra)) as [k Hk]. apply (Same k (along spans k u)); [apply Hk| |]; [unfold c|rewrite Hc']; apply locate_inside; auto.
Qed.

(** [definite_integral] is the integral of the curve between the two bounds brought inside the curve, so anything past
    either end adds nothing and reversed bounds give the negated area. *)
Theorem C54_definite_integral : forall (max_pieces dimension : nat) (pieces : list (list (list R))) (spans : list R) (c : Piecewise R) (lower upper : R),
  piecewise_try_from_pieces max_pieces pieces spans = Ok c ->
  (forall piece, In piece pieces -> length piece = dimension) ->
  exists areas, piecewise_definite_integral dimension c lower upper = Ok areas /\ length areas = dimension /\
  forall axis, (axis < dimension)%nat -> is_RInt (axis_value c axis) (inside spans lower) (inside spans upper) (nth axis areas 0).
Proof.
  intros mp dim pieces spans c lower upper H Hd. pose proof (C54_evaluate _ _ _ _ H) as (_ & _ & Ev & _).
  destruct (accepted _ _ _ _ H) as (-> & Hl & Hn & Hp). set (c := {| pw_pieces := pieces; pw_spans := spans |}) in *.
  pose proof (curve_end_pos spans Hp Hn) as He.
  assert (W : forall ws we, ws <= we -> forall axis, (axis < dim)%nat ->
    is_RInt (axis_value c axis) (inside spans ws) (inside spans we) (nth axis (integral_walk pieces spans (inside spans ws) (inside spans we) 0 (repeat 0 dim)) 0)).
  { intros ws we Hw axis Hx.
    assert (Hin : inside spans ws <= inside spans we) by (unfold inside, Rmin, Rmax; repeat destruct (Rle_dec _ _); lra).
    pose proof (integral_walk_R dim axis (axis_value c axis) (inside spans ws) (inside spans we) Hin Hx pieces spans 0 (repeat 0 dim) Hl Hp (repeat_length _ _) Hd) as I.
    rewrite nth_repeat0, Rminus_0_r, Rplus_0_l in I.
    replace (held (inside spans ws) (inside spans we) 0) with (inside spans ws) in I
      by (unfold held, inside, Rmin, Rmax in *; repeat destruct (Rle_dec _ _); lra).
    replace (held (inside spans ws) (inside spans we) (curve_end spans)) with (inside spans we) in I
      by (unfold held, inside, Rmin, Rmax in *; repeat destruct (Rle_dec _ _); lra).
    apply I. intros k u Hk Hu. rewrite !Rplus_0_l in *. unfold axis_value. rewrite (Ev k u) by (split; [exact Hk|lra]).
    rewrite (nth_map_lt _ _ _ []) by (rewrite (Hd (nth k pieces [])) by (apply nth_In; lia); exact Hx).
    reflexivity. }
  unfold piecewise_definite_integral. cbn [pw_pieces c]. destruct (Nat.eqb_spec (length pieces) 0); [lia|].
  assert (Ht : piecewise_total_span c = curve_end spans) by (unfold piecewise_total_span, c; cbn [pw_spans]; rewrite total_span_R; rnum; ring).
  fold c. rewrite Ht. cbn [pw_spans c].
  assert (L : forall ws we, length (integral_walk pieces spans ws we 0 (repeat 0 dim)) = dim) by (intros; apply integral_walk_length; [apply repeat_length|exact Hd]).
  rnum. destruct (Rltb upper lower) eqn:E; [apply Rltb_true in E|apply Rltb_false in E]; (eexists; split; [reflexivity|]).
  - rewrite map_length. split; [apply L|]. intros axis Hx. rewrite (nth_map_lt _ _ _ 0) by (rewrite L; exact Hx).
    apply (is_RInt_swap (axis_value c axis)). apply (W upper lower ltac:(lra) axis Hx).
  - split; [apply L|]. intros axis Hx. apply (W lower upper ltac:(lra) axis Hx).
Qed.

(** For any scalar: a parameter that compares false with everything (a NaN) reads as the very end of the curve. *)
Theorem C54_incomparable_parameter : forall (T : Type) (NT : Num T) (max_pieces : nat) (pieces : list (list (list T))) (spans : list T) (c : Piecewise T) (u : T),
  piecewise_try_from_pieces max_pieces pieces spans = Ok c ->
  (forall x, ltb u x = false) -> (forall x, leb u x = false) ->
  piecewise_evaluate c u = Ok (map (fun p => poly_evaluate p one) (last pieces [])).
Proof.
  intros T NT mp pieces spans c u H Hlt Hle. apply C54_accepts in H. destruct H as (-> & H0 & Hl & _).
  unfold piecewise_evaluate, piecewise_locate. cbn [pw_pieces pw_spans]. destruct (Nat.eqb_spec (length pieces) 0); [lia|]. rewrite Hle.
  assert (W : forall spans index cov, locate_walk spans index cov u = None).
  { intros l. induction l as [|s l IH]; intros; cbn; [reflexivity|]. rewrite Hlt. apply IH. }
  rewrite W, last_nth. rewrite (nth_error_nth' pieces [] (n := (length pieces - 1)%nat)) by lia. reflexivity.
Qed.

(** The example of the documentation: two pieces over spans 2 and 1. *)
Definition demo_pieces : list (list (list R)) := [[[0; 1]]; [[1; 2]]].
Example C54_example :
  let c := {| pw_pieces := demo_pieces; pw_spans := [2; 1] |} in
  piecewise_try_from_pieces 2 demo_pieces [2; 1] = Ok c /\ covers [2; 1] 1 (5 / 2) /\
  piecewise_evaluate c (5 / 2) = Ok [2] /\ piecewise_evaluate_with_derivatives 2 c (5 / 2) = Ok [[2]; [2]] /\
  piecewise_definite_integral 1 c 1 99 = Ok [11 / 4] /\
  (forall piece, In piece demo_pieces -> length piece = 1%nat) /\ (forall piece p, In piece demo_pieces -> In p piece -> length p = 2%nat).
Proof.
  intros c. split; [|split; [|split; [|split; [|split; [|split]]]]].
  - unfold piecewise_try_from_pieces. cbn. rdecide. reflexivity.
  - split; [cbn; lia|]. unfold piece_start. cbn. lra.
  - unfold piecewise_evaluate, piecewise_locate. cbn. rdecide. cbn. rnum. f_equal. rlist.
  - unfold piecewise_evaluate_with_derivatives, piecewise_locate. cbn. rdecide. cbn. rnum. f_equal.
    apply f_equal2; [rlist|]. apply f_equal2; [rlist|reflexivity].
  - unfold piecewise_definite_integral. cbn -[Rmin Rmax]. rdecide. rminmax. rdecide. cbn. f_equal. rlist.
  - intros piece [<-|[<-|[]]]; reflexivity.
  - intros piece p [<-|[<-|[]]] [<-|[]]; reflexivity.
Qed.
Print Assumptions C54_accepts.
Print Assumptions C54_evaluate.
Print Assumptions C54_derivatives.
Print Assumptions C54_nth_derivative.
Print Assumptions C54_definite_integral.
Print Assumptions C54_incomparable_parameter.

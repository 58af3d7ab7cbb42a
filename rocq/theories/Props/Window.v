(** C26, C27, C29: the window filters. *)
From Coq Require Import ZArith List Bool Reals Lra Lia Permutation.
From Flocq Require Import Core IEEE754.BinarySingleNaN.
From Verif Require Import Base.Scalar Base.RNum Base.FNum Base.FloatOps Model.Errors Model.Summation Model.Window
  Spec.Stream Spec.Window Proofs.Summation Proofs.Window Props.Random.
Import ListNotations.

Lemma moving_average_new_ok {T} {NT : Num T} w r0 : moving_average_new w = Ok r0 -> 0 < w /\ r0 = ring_new w.
Proof. unfold moving_average_new. destruct (Nat.eqb_spec w 0); intros H; inversion H. split; [lia|reflexivity]. Qed.

Lemma running_median_new_ok {T} {NT : Num T} w r0 : running_median_new w = Ok r0 ->
  0 < w /\ w mod 2 = 1 /\ r0 = ring_new w.
Proof.
  unfold running_median_new. destruct (Nat.eqb_spec w 0); [discriminate|].
  destruct (Nat.eqb_spec (w mod 2) 0); intros H; inversion H. repeat split; [lia|].
  pose proof (Nat.mod_upper_bound w 2). lia.
Qed.

(** ** C26 *)
Theorem C26_moving_average : forall (w : nat) (r0 : Ring R) (hist : list (event R)) (x : R),
  moving_average_new w = Ok r0 ->
  let r := replay (moving_average_filter w) (ring_reset w) r0 hist in
  let samples := since_reset hist ++ [x] in
  snd (moving_average_filter w r x) = mean (last_window w (hd x samples) samples).
Proof.
  intros w r0 hist x H. cbv zeta. apply moving_average_new_ok in H as [Hw ->].
  set (read := moving_average_value w).
  change (moving_average_filter w) with (fun r y => (ring_push w r y, read (ring_push w r y))).
  rewrite (ring_replay w read hist). cbn [snd].
  replace (ring_push w (fold_left (ring_push w) (since_reset hist) (ring_new w)) x)
    with (fold_left (ring_push w) (since_reset hist ++ [x]) (ring_new w)) by (rewrite fold_left_app; reflexivity).
  destruct (since_reset hist ++ [x]) as [|y ys] eqn:E; [destruct (since_reset hist); discriminate|].
  destruct (ring_window w y ys (ring_new w) Hw eq_refl) as (_ & I2 & _ & I4).
  set (r := fold_left (ring_push w) (y :: ys) (ring_new w)) in *.
  unfold read, moving_average_value, mean. cbn [hd]. rewrite last_window_length, <- I4.
  rnum. rewrite fold_left_sum, (sum_perm _ _ (chron_perm r)), Rplus_0_l.
  unfold of_nat. rnum. rewrite INR_IZR_INZ. reflexivity.
Qed.

(** [value] without feeding a sample repeats the last output. *)
Theorem C26_moving_average_value : forall (T : Type) (NT : Num T) (w : nat) (r : Ring T) (x : T),
  moving_average_value w (fst (moving_average_filter w r x)) = snd (moving_average_filter w r x).
Proof. reflexivity. Qed.

Example C26_example : exists r0 : Ring R, moving_average_new 4 = Ok r0 /\
  snd (moving_average_filter 4 (replay (moving_average_filter 4) (ring_reset 4) r0 [Sample 9%R; Reset; Sample 1%R]) 5%R) = 2%R.
Proof.
  exists (ring_new 4). split; [reflexivity|]. rewrite (C26_moving_average 4 _ _ _ eq_refl). cbn. unfold mean. cbn. lra.
Qed.

(** ** C27 *)

(** For any scalar whatsoever, NaN included, the output is one of the samples in the window. *)
Theorem C27_median_is_a_sample : forall (T : Type) (NT : Num T) (w : nat) (r0 : Ring T) hist x,
  running_median_new w = Ok r0 ->
  let r := replay (running_median_filter w) (ring_reset w) r0 hist in
  let samples := since_reset hist ++ [x] in
  In (snd (running_median_filter w r x)) (last_window w (hd x samples) samples).
Proof.
  intros T NT w r0 hist x H. cbv zeta. apply running_median_new_ok in H as (Hw & _ & ->).
  set (read := running_median_value w).
  change (running_median_filter w) with (fun r y => (ring_push w r y, read (ring_push w r y))).
  rewrite (ring_replay w read hist). cbn [snd].
  replace (ring_push w (fold_left (ring_push w) (since_reset hist) (ring_new w)) x)
    with (fold_left (ring_push w) (since_reset hist ++ [x]) (ring_new w)) by (rewrite fold_left_app; reflexivity).
  destruct (since_reset hist ++ [x]) as [|y ys] eqn:E; [destruct (since_reset hist); discriminate|].
  destruct (ring_window w y ys (ring_new w) Hw eq_refl) as (_ & I2 & _ & I4).
  set (r := fold_left (ring_push w) (y :: ys) (ring_new w)) in *. cbn [hd]. rewrite <- I4.
  apply (Permutation_in _ (chron_perm r)). apply median_in; assumption.
Qed.

Lemma median_output_counts (T : Type) (NT : Num T) (key : T -> R) (P : T -> Prop)
  (Hkey : forall x y, P x -> P y -> (ltb x y = true <-> (key x < key y)%R)) w (r0 : Ring T) hist x :
  running_median_new w = Ok r0 ->
  let r := replay (running_median_filter w) (ring_reset w) r0 hist in
  let samples := since_reset hist ++ [x] in
  let window := last_window w (hd x samples) samples in
  Forall P window ->
  let m := snd (running_median_filter w r x) in
  In m window /\ count (fun z => ltb z m) window <= w / 2 /\ count (fun z => ltb m z) window <= w / 2.
Proof.
  intros H. cbv zeta. apply running_median_new_ok in H as (Hw & Ho & ->).
  set (read := running_median_value w).
  change (running_median_filter w) with (fun r y => (ring_push w r y, read (ring_push w r y))).
  rewrite (ring_replay w read hist). cbn [snd].
  replace (ring_push w (fold_left (ring_push w) (since_reset hist) (ring_new w)) x)
    with (fold_left (ring_push w) (since_reset hist ++ [x]) (ring_new w)) by (rewrite fold_left_app; reflexivity).
  destruct (since_reset hist ++ [x]) as [|y ys] eqn:E; [destruct (since_reset hist); discriminate|].
  destruct (ring_window w y ys (ring_new w) Hw eq_refl) as (_ & I2 & _ & I4).
  set (r := fold_left (ring_push w) (y :: ys) (ring_new w)) in *. cbn [hd]. rewrite <- I4. intros HP.
  destruct (median_counts key P Hkey w (rg_samples r) I2 Ho) as (A & B & C).
  { apply (Permutation_Forall (Permutation_sym (chron_perm r))). exact HP. }
  unfold read, running_median_value. rewrite <- !(count_perm _ _ _ (chron_perm r)).
  split; [apply (Permutation_in _ (chron_perm r)); exact A|]. split; assumption.
Qed.

(** Over the reals: an element of the window with at most half of it below and at most half above. *)
Theorem C27_median : forall (w : nat) (r0 : Ring R) hist x, running_median_new w = Ok r0 ->
  let r := replay (running_median_filter w) (ring_reset w) r0 hist in
  let samples := since_reset hist ++ [x] in
  let window := last_window w (hd x samples) samples in
  let m := snd (running_median_filter w r x) in
  In m window /\ count (fun z => Rltb z m) window <= w / 2 /\ count (fun z => Rltb m z) window <= w / 2.
Proof.
  intros w r0 hist x H. apply (median_output_counts R Rnum (fun z => z) (fun _ => True)); [|exact H|].
  - intros. apply Rltb_true.
  - apply Forall_forall. auto.
Qed.

(** The same in f64 as long as no NaN is in the window; infinities are allowed. *)
Theorem C27_median_f64 : forall (lm : Libm f64) (w : nat) (r0 : Ring f64) hist x,
  @running_median_new f64 (f64num lm) w = Ok r0 ->
  let r := replay (@running_median_filter f64 (f64num lm) w) (@ring_reset f64 (f64num lm) w) r0 hist in
  let samples := since_reset hist ++ [x] in
  let window := last_window w (hd x samples) samples in
  Forall (fun z => BinarySingleNaN.is_nan z = false) window ->
  let m := snd (@running_median_filter f64 (f64num lm) w r x) in
  In m window /\ count (fun z => Bltb z m) window <= w / 2 /\ count (fun z => Bltb m z) window <= w / 2.
Proof.
  intros lm w r0 hist x H.
  apply (median_output_counts f64 (f64num lm) (fkey 53 1024) (notnan 53 1024)); [|exact H].
  intros. apply fkey_ltb; assumption.
Qed.

(** Fewer than half the window being outliers can never push the output outside the range of the rest. *)
Theorem C27_median_outliers : forall (w : nat) (r0 : Ring R) hist x lo hi, running_median_new w = Ok r0 ->
  let r := replay (running_median_filter w) (ring_reset w) r0 hist in
  let samples := since_reset hist ++ [x] in
  let window := last_window w (hd x samples) samples in
  2 * count (fun z => negb (Rleb lo z && Rleb z hi)) window < w ->
  (lo <= snd (running_median_filter w r x) <= hi)%R.
Proof.
  intros w r0 hist x lo hi H. cbv zeta. intros HO.
  destruct (C27_median w r0 hist x H) as (_ & B & C).
  set (m := snd _) in *. set (window := last_window _ _ _) in *.
  assert (L : length window = w) by apply last_window_length.
  assert (Hw : 2 * (w / 2) <= w) by (apply Nat.mul_div_le; lia).
  (* an inlier on each side of m *)
  assert (K : forall f g : R -> bool, (forall z, f z = true -> g z = true) ->
              count f window <= count g window).
  { intros f g Hfg. unfold count. clear - Hfg. induction window as [|a l IH]; cbn; [lia|].
    specialize (Hfg a). destruct (f a), (g a); cbn; try lia; discriminate (Hfg eq_refl). }
  assert (N : forall f : R -> bool, count f window + count (fun z => negb (f z)) window = w).
  { intros f. unfold count. rewrite <- L. clear. induction window as [|a l IH]; cbn; [lia|]. destruct (f a); cbn; lia. }
  destruct (running_median_new_ok w r0 H) as (Hw0 & Ho & _).
  assert (Hodd : w = 2 * (w / 2) + 1) by (rewrite (Nat.div_mod w 2) at 1 by lia; lia).
  split.
  - destruct (Rle_lt_dec lo m) as [Q|Q]; [exact Q|exfalso].
    (* everything not above m is an outlier *)
    specialize (N (fun z => Rltb m z)).
    assert (count (fun z => negb (Rltb m z)) window <= count (fun z => negb (Rleb lo z && Rleb z hi)) window); [|lia].
    apply K. intros z Hz. rcases. apply negb_true_iff, andb_false_iff. left. apply Rleb_false. lra.
  - destruct (Rle_lt_dec m hi) as [Q|Q]; [exact Q|exfalso].
    specialize (N (fun z => Rltb z m)).
    assert (count (fun z => negb (Rltb z m)) window <= count (fun z => negb (Rleb lo z && Rleb z hi)) window); [|lia].
    apply K. intros z Hz. rcases. apply negb_true_iff, andb_false_iff. right. apply Rleb_false. lra.
Qed.

(** A window of five with one wild reading of infinity in f64; the middle value is one of the others. *)
Example C27_example : exists r0, @running_median_new f64 (f64num some_libm) 5 = Ok r0 /\
  B2SF (snd (@running_median_filter f64 (f64num some_libm) 5
    (replay (@running_median_filter f64 (f64num some_libm) 5) (@ring_reset f64 (f64num some_libm) 5) r0
       [Sample (F64 1 0); Sample (F64 5 0); Sample (F64 3 0); Sample (B754_infinity false)]) (F64 4 0))) = B2SF (F64 4 0).
Proof. exists (@ring_new f64 (f64num some_libm) 5). split; [reflexivity|vm_compute; reflexivity]. Qed.

(** ** C29: false as stated.  A Savitzky-Golay filter read at the newest sample subtracts one from the window
    length before checking it, so a window of zero is an integer overflow, whatever the timestep is. *)
Theorem C29_zero_window_refuted : ~ (forall (T : Type) (NT : Num T) pinv (terms : nat) (timestep : T),
  exists e, savgol_latest pinv 0 terms timestep = Err e).
Proof.
  intros H. destruct (H R Rnum (fun _ => Err LaSingular) 3 1%R) as [e E]. discriminate E.
Qed.

(** The other window constructors report the documented error; and [latest] reports it for zero terms. *)
Theorem C29_zero_window_partial : forall (T : Type) (NT : Num T) pinv (w terms : nat) (timestep : T),
  (@moving_average_new T NT 0 = Err SigWindowTooShort) /\
  (@running_median_new T NT 0 = Err SigWindowTooShort) /\
  (w mod 2 = 0 -> w <> 0 -> @running_median_new T NT w = Err SigWindowEvenLength) /\
  (w mod 2 = 0 -> savgol_centered pinv w terms timestep = Err SigWindowEvenLength) /\
  (0 < w -> is_finite timestep = true -> leb timestep zero = false ->
     savgol_latest pinv w 0 timestep = Err SigWindowTooShort /\
     (w < terms -> savgol_latest pinv w terms timestep = Err SigPolynomialOrderTooHigh)).
Proof.
  intros. repeat split.
  - intros E N. unfold running_median_new. rewrite E. cbn. destruct (Nat.eqb_spec w 0); [contradiction|reflexivity].
  - intros E. unfold savgol_centered. rewrite E. reflexivity.
  - destruct w; [lia|]. cbn [savgol_latest]. unfold savgol_build. rewrite H0, H1. cbn. reflexivity.
  - intros L. destruct w; [lia|]. cbn [savgol_latest]. unfold savgol_build. rewrite H0, H1. cbn [negb].
    destruct (Nat.eqb_spec terms 0); [lia|]. cbn [Nat.eqb orb].
    destruct (Nat.ltb_spec (S w) terms); [reflexivity|lia].
Qed.
Example C29_example : savgol_latest (fun _ => Err LaSingular) 2 3 1%R = Err SigPolynomialOrderTooHigh.
Proof.
  apply (C29_zero_window_partial R Rnum _ 2 3 1%R); try lia; [reflexivity|]. rnum. apply Rleb_false. lra.
Qed.

Print Assumptions C26_moving_average.
Print Assumptions C27_median_is_a_sample.
Print Assumptions C27_median.
Print Assumptions C27_median_f64.
Print Assumptions C27_median_outliers.
Print Assumptions C29_zero_window_refuted.
Print Assumptions C29_zero_window_partial.

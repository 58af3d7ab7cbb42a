(** Lemmas for C139 and C140: reweighting in logarithms, gathering the chosen particles, sums along a cloud. *)
From Coq Require Import ZArith Reals List Bool Arith Lia Lra Sorting.
From Flocq Require Import Core.Raux.
From Verif Require Import Base.Scalar Base.Lists Base.RNum Base.XNum Base.Series Model.Errors Model.Vector Model.Matrix Model.Kalman Model.ParticleFilter
  Proofs.Vector Proofs.Resampling Spec.Particles.
Import ListNotations.
Local Open Scope R_scope.
Local Notation exp := Rtrigo_def.exp.

Section AnyScalar.
  Context {T : Type} {NT : Num T} {Rng : Type}.
  Variable next_unit next_normal : Rng -> T * Rng.

  Lemma gather_total (ps : list (list T)) l : Forall (fun i => (i < length ps)%nat) l -> gather ps l = Some (map (fun i => nth i ps []) l).
  Proof.
    induction 1 as [|i l H _ IH]; [reflexivity|]. cbn [gather map]. rewrite (nth_error_nth' ps [] H), IH. reflexivity.
  Qed.
  Lemma jitter_length axis scale : forall (ps : list (list T)) g, length (fst (jitter next_normal axis scale ps g)) = length ps.
  Proof.
    induction ps as [|p ps IH]; intros g; [reflexivity|]. cbn [jitter]. destruct (next_normal g) as [x g1]. specialize (IH g1).
    destruct (jitter _ _ _ _ _) as [r g2]. cbn in *. lia.
  Qed.
  Lemma roughen_length n r (c : list (list T) * Rng) : length (fst (roughen next_normal n r c)) = length (fst c).
  Proof.
    unfold roughen. generalize (seq 0 n). intros axes. revert c. induction axes as [|a axes IH]; intros [ps g]; [reflexivity|]. cbn [fold_left].
    rewrite IH. destruct (_ <=? zero)%num; [reflexivity|]. cbn [fst]. apply jitter_length.
  Qed.
  Lemma propagate_spec n model factor : forall (ps : list (list T)) g,
    length (fst (propagate next_normal n model factor ps g)) = length ps /\
    snd (propagate next_normal n model factor ps g) = later next_normal (length ps * n) g /\
    forall i, (i < length ps)%nat -> nth i (fst (propagate next_normal n model factor ps g)) [] =
      vec_add (model (nth i ps [])) (mat_vec n n factor (map (fun k => nth_draw next_normal (i * n + k) g) (seq 0 n))).
  Proof.
    assert (LA : forall a b g, later next_normal (a + b) g = later next_normal a (later next_normal b g)).
    { induction a; intros b g; [reflexivity|]. cbn. f_equal. f_equal. apply IHa. }
    assert (DM : forall k g, fst (draws next_normal k g) = map (fun j => nth_draw next_normal j g) (seq 0 k)).
    { intros k g. destruct (draws_spec next_normal k g) as (A & _ & B). apply (nth_ext _ _ zero (nth_draw next_normal 0 g)); [rewrite map_length, seq_length; exact A|].
      intros j Hj. rewrite (map_nth (fun j => nth_draw next_normal j g)). rewrite B, seq_nth by lia. reflexivity. }
    induction ps as [|p ps IH]; intros g; [repeat split; intros; cbn in *; lia|]. cbn [propagate].
    pose proof (DM n g) as D1. destruct (draws_spec next_normal n g) as (_ & D2 & _). destruct (draws next_normal n g) as [noise g1]. cbn [fst snd] in D1, D2.
    destruct (IH g1) as (A & B & C). destruct (propagate _ _ _ _ _ _) as [rest g2]. cbn [fst snd] in *.
    split; [cbn; lia|]. split; [cbn [length]; rewrite B, D2, <- LA; f_equal; lia|]. intros [|i] Hi; cbn [nth]; [rewrite D1; reflexivity|].
    cbn in Hi. rewrite C by lia. f_equal. f_equal. apply map_ext. intros k. unfold nth_draw. rewrite D2, <- LA. do 3 f_equal. cbn. lia.
  Qed.
  Lemma scatter_spec n mean factor : forall count g,
    length (fst (scatter next_normal n count mean factor g)) = count /\
    snd (scatter next_normal n count mean factor g) = later next_normal (count * n) g /\
    forall i, (i < count)%nat -> nth i (fst (scatter next_normal n count mean factor g)) [] =
      vec_add mean (mat_vec n n factor (map (fun k => nth_draw next_normal (i * n + k) g) (seq 0 n))).
  Proof.
    intros count g.
    assert (E : scatter next_normal n count mean factor g = propagate next_normal n (fun _ => mean) factor (repeat [] count) g).
    { revert g. induction count as [|c IH]; intros g; [reflexivity|]. cbn [scatter propagate repeat]. destruct (draws _ _ _). rewrite IH. reflexivity. }
    rewrite E. destruct (propagate_spec n (fun _ => mean) factor (repeat [] count) g) as (A & B & C). rewrite repeat_length in *. auto.
  Qed.

  (** what the measurement update scores is a closure that does not look at the call's number *)
  Lemma indexed_map2 {A B C} (f : A -> B -> C) (us : list A) : forall (vs : list B) s,
    map2 (fun u iv => f u (snd iv)) us (combine (seq s (length vs)) vs) = map2 f us vs.
  Proof. induction us as [|u us IH]; intros [|v vs] s; cbn; f_equal. apply IH. Qed.
End AnyScalar.

(** ** Logarithms of weights, with minus infinity for zero *)
Definition log_of (x : R) : XR := if Req_EM_T x 0 then NInf else Fin (ln x).
Definition least : R := @min_positive R Rnum.
Lemma least_pos : 0 < least. Proof. unfold least. cbn. apply Rinv_0_lt_compat. lra. Qed.
Lemma log_of_pos x : 0 < x -> log_of x = Fin (ln x). Proof. intros H. unfold log_of. destruct (Req_EM_T x 0); [lra|reflexivity]. Qed.
Lemma log_of_0 : log_of 0 = NInf. Proof. unfold log_of. destruct (Req_EM_T 0 0); [reflexivity|lra]. Qed.
Lemma log_of_mul p l : 0 < p -> 0 <= l -> xadd (Fin (ln p)) (log_of l) = log_of (p * l).
Proof.
  intros P [L|<-].
  - rewrite !log_of_pos by (try apply Rmult_lt_0_compat; auto). cbn. rewrite ln_mult by auto. reflexivity.
  - rewrite Rmult_0_r, log_of_0. reflexivity.
Qed.
Lemma recoverable_prior w i : 0 <= weight w i -> recoverable_log_weight (Fin (weight w i)) = Fin (ln (prior least w i)) /\ 0 < prior least w i.
Proof.
  intros H. unfold recoverable_log_weight, prior. cbn [eqb Xnum xeq zero]. unfold Reqb. destruct (Req_EM_T (weight w i) 0) as [E|E].
  - cbn [log min_positive Xnum]. change (@min_positive R Rnum) with least. pose proof least_pos. split; [|exact H0]. unfold xlog.
    destruct (Rlt_dec least 0); [lra|]. destruct (Req_EM_T least 0); [lra|]. reflexivity.
  - cbn [log Xnum]. unfold xlog. destruct (Rlt_dec _ 0); [lra|]. destruct (Req_EM_T _ 0); [lra|]. split; [reflexivity|lra].
Qed.
Lemma largest_log (v : nat -> R) l : (forall i, In i l -> 0 <= v i) -> forall m, 0 <= m ->
  exists M, fold_left (fun largest x => if (x >? largest)%num then x else largest) (map (fun i => log_of (v i)) l) (log_of m) = log_of M /\
    m <= M /\ (forall i, In i l -> v i <= M) /\ (M = m \/ exists i, In i l /\ v i = M).
Proof.
  induction l as [|a l IH]; intros V m Hm; cbn [map fold_left]; [exists m; repeat split; auto; try lra; intros i []|].
  assert (E : (if (log_of (v a) >? log_of m)%num then log_of (v a) else log_of m) = log_of (Rmax m (v a))).
  { assert (0 <= v a) by (apply V; left; reflexivity). cbn [ltb Xnum]. destruct (Req_dec m 0) as [->|M0].
    - rewrite Rmax_right by auto. destruct (Req_dec (v a) 0) as [->|V0]; [destruct (xlt _ _); reflexivity|]. rewrite log_of_0, (log_of_pos (v a)) by lra. reflexivity.
    - destruct (Req_dec (v a) 0) as [V0|V0].
      + rewrite V0, log_of_0, Rmax_left, log_of_pos by lra. reflexivity.
      + rewrite (log_of_pos (v a)), (log_of_pos m) by lra. cbn [xlt]. destruct (Rltb (ln m) (ln (v a))) eqn:E.
        * apply Rltb_true in E. apply ln_lt_inv in E; [|lra|lra]. rewrite Rmax_right, log_of_pos by lra. reflexivity.
        * apply Rltb_false in E. assert (v a <= m). { destruct (Rle_dec (v a) m); [auto|]. assert (ln m < ln (v a)) by (apply ln_increasing; lra). lra. }
          rewrite Rmax_left, log_of_pos by lra. reflexivity. }
  rewrite E. destruct (IH ltac:(intros; apply V; right; auto) (Rmax m (v a)) ltac:(apply Rle_trans with m; [auto|apply Rmax_l])) as (M & A & B & C & D).
  exists M. split; [exact A|]. pose proof (Rmax_l m (v a)). pose proof (Rmax_r m (v a)). split; [lra|]. split; [intros i [<-|I]; [lra|auto]|].
  destruct D as [D|(i & I & D)]; [|right; exists i; split; [right; auto|exact D]].
  unfold Rmax in D. destruct (Rle_dec m (v a)); [right; exists a; split; [left; reflexivity|auto]|left; exact D].
Qed.
Lemma exp_log_of x m : 0 <= x -> 0 < m -> (@Scalar.exp XR Xnum (log_of x - Fin (ln m))%num) = Fin (x / m).
Proof.
  intros [X|<-] M.
  - rewrite log_of_pos by auto. cbn. f_equal. rewrite exp_plus, exp_Ropp, !exp_ln by auto. reflexivity.
  - rewrite log_of_0. cbn. f_equal. unfold Rdiv. ring.
Qed.
Lemma fold_add_fin {A} (f : A -> R) l : forall c, fold_left (fun s x => (s + Fin (f x))%num) l (Fin c) = Fin (c + fold_left (fun s x => s + f x) l 0).
Proof.
  assert (G : forall l c, fold_left (fun s x => s + f x) l c = c + fold_left (fun s x => s + f x) l 0).
  { intros k. induction k as [|a k IH]; intros c; cbn; [ring|]. rewrite IH, (IH (0 + f a)). ring. }
  induction l as [|a l IH]; intros c; cbn [fold_left]; [f_equal; ring|]. cbn [add Xnum xadd]. rewrite IH, (G l (0 + f a)). f_equal. ring.
Qed.
Lemma fold_seq f n : forall s, fold_left (fun s (i : nat) => s + f i) (seq s n) 0 = bsum n (fun k => f (s + k)%nat).
Proof.
  assert (G : forall l c, fold_left (fun s (i : nat) => s + f i) l c = c + fold_left (fun s i => s + f i) l 0).
  { intros k. induction k as [|a k IH]; intros c; cbn; [ring|]. rewrite IH, (IH (0 + f a)). ring. }
  induction n; intros s; [reflexivity|]. rewrite bsum_first. cbn [seq fold_left]. rewrite G, IHn, Nat.add_0_r.
  rewrite (bsum_ext n (fun k => f (S s + k)%nat) (fun i => f (s + S i)%nat)) by (intros; f_equal; lia). ring.
Qed.
Lemma fold_map {A B C} (f : C -> B -> C) (g : A -> B) l : forall c, fold_left f (map g l) c = fold_left (fun s x => f s (g x)) l c.
Proof. induction l; intros c; cbn; auto. Qed.
Lemma sum_fin (f : nat -> R) n : sum_list (map (fun i => Fin (f i)) (seq 0 n)) = Fin (bsum n f).
Proof. unfold sum_list. rewrite fold_map. change (@zero XR Xnum) with (Fin 0). rewrite fold_add_fin, fold_seq, Rplus_0_l. reflexivity. Qed.
Lemma list_by_index {A} (l : list A) d : l = map (fun i => nth i l d) (seq 0 (length l)).
Proof.
  induction l as [|a l IH]; [reflexivity|]. cbn [length seq map nth]. f_equal. rewrite <- seq_shift, map_map. exact IH.
Qed.
Lemma sum_squares_fin w : fold_left (fun s x => (s + x * x)%num) (map Fin w) (Fin 0) = Fin (bsum (length w) (fun i => weight w i * weight w i)).
Proof.
  rewrite fold_map. cbn [mul Xnum xmul]. rewrite (fold_add_fin (fun x => x * x)), Rplus_0_l. f_equal.
  rewrite (list_by_index w 0) at 1. rewrite fold_map. rewrite (fold_seq (fun i => nth i w 0 * nth i w 0)). reflexivity.
Qed.
Lemma map_weight {B} (g : R -> B) w : map g w = map (fun i => g (weight w i)) (seq 0 (length w)).
Proof. rewrite (list_by_index w 0) at 1. rewrite map_map. reflexivity. Qed.

(** the scores of an update, by index *)
Lemma scored_by_index {B} (f : XR -> nat * B -> XR) w (ps : list B) d : length ps = length w ->
  map2 f (map Fin w) (combine (seq 0 (length ps)) ps) = map (fun i => f (Fin (weight w i)) (i, nth i ps d)) (seq 0 (length w)).
Proof.
  intros L. apply (nth_ext _ _ (Fin 0) (Fin 0)).
  - rewrite map2_length, !map_length, seq_length; [reflexivity|]. rewrite map_length, combine_length, seq_length. lia.
  - intros i Hi. rewrite map2_length in Hi by (rewrite map_length, combine_length, seq_length; lia). rewrite map_length in Hi.
    rewrite (nth_indep (map _ (seq _ _)) _ (f (Fin (weight w 0)) (0%nat, nth 0 ps d))) by (rewrite map_length, seq_length; exact Hi).
    rewrite (map_nth (fun i => f (Fin (weight w i)) (i, nth i ps d)) (seq 0 (length w)) 0%nat), seq_nth by exact Hi. cbn [plus].
    assert (G : forall us vs a b i, length us = length vs -> (i < length us)%nat -> nth i (map2 f us vs) (Fin 0) = f (nth i us a) (nth i vs b)).
    { clear. induction us as [|u us IH]; intros [|v vs] a b [|i] L H; cbn in *; try lia; [reflexivity|apply IH; lia]. }
    rewrite (G _ _ (Fin 0) (0%nat, d)); [|rewrite map_length, combine_length, seq_length; lia|rewrite map_length; exact Hi].
    rewrite (map_nth Fin w 0 i), combine_nth by apply seq_length. rewrite seq_nth by lia. reflexivity.
Qed.

Lemma posterior_distribution w like : (forall i, 0 <= weight w i) -> (forall i, (i < length w)%nat -> 0 <= like i) -> (exists i, (i < length w)%nat /\ 0 < like i) ->
  0 < bsum (length w) (fun j => prior least w j * like j) /\ distribution (posteriors least w like) /\ length (posteriors least w like) = length w.
Proof.
  intros W LK (i0 & I0 & P0).
  assert (PR : forall i, 0 < prior least w i) by (intros i; apply recoverable_prior, W).
  assert (S : 0 < bsum (length w) (fun j => prior least w j * like j)).
  { apply Rlt_le_trans with (prior least w i0 * like i0); [apply Rmult_lt_0_compat; auto|].
    rewrite <- (bsum_delta (length w) i0 (prior least w i0 * like i0) I0). apply bsum_le. intros i Hi. specialize (PR i). specialize (LK i Hi). destruct (Nat.eqb_spec i i0) as [->|]; nra. }
  assert (L : length (posteriors least w like) = length w) by (unfold posteriors; rewrite map_length, seq_length; reflexivity).
  assert (N : forall i, (i < length w)%nat -> weight (posteriors least w like) i = posterior least w like i).
  { intros i Hi. unfold weight, posteriors. rewrite (nth_indep _ 0 (posterior least w like 0)) by (rewrite map_length, seq_length; exact Hi). rewrite map_nth, seq_nth by exact Hi. reflexivity. }
  split; [exact S|]. split; [|exact L]. split.
  - intros i. destruct (Nat.lt_ge_cases i (length w)) as [H|H]; [|rewrite weight_out by lia; lra]. rewrite N by exact H. unfold posterior.
    specialize (PR i). specialize (LK i H). apply Rmult_le_pos; [nra|]. apply Rlt_le, Rinv_0_lt_compat, S.
  - rewrite L. rewrite (bsum_ext _ _ (fun i => / bsum (length w) (fun j => prior least w j * like j) * (prior least w i * like i))).
    + rewrite bsum_scal. field. lra.
    + intros i Hi. rewrite N by exact Hi. unfold posterior, Rdiv. ring.
Qed.

Lemma distribution_squares w : distribution w -> 1 <= INR (length w) * bsum (length w) (fun i => weight w i * weight w i) /\
  0 < bsum (length w) (fun i => weight w i * weight w i) <= 1.
Proof.
  intros D. pose proof D as [W SS]. assert (P : (0 < length w)%nat) by (destruct w; [cbn in SS; lra|cbn; lia]).
  assert (PN : 0 < INR (length w)) by (apply lt_0_INR; exact P). set (q := bsum _ (fun i => weight w i * weight w i)).
  assert (C : 1 <= INR (length w) * q).
  { assert (0 <= bsum (length w) (fun i => (weight w i - / INR (length w)) * (weight w i - / INR (length w)))) by (apply bsum_nonneg; intros; apply Rle_0_sqr).
    rewrite (bsum_ext _ _ (fun i => (weight w i * weight w i - (2 * / INR (length w)) * weight w i) + / INR (length w) * / INR (length w))) in H by (intros; ring).
    rewrite bsum_plus, bsum_minus, bsum_scal, SS in H. fold q in H.
    assert (K : forall n c, bsum n (fun _ => c) = INR n * c) by (intros n c; induction n; [cbn; ring|]; rewrite S_INR; cbn; rewrite IHn; ring). rewrite K in H.
    replace (INR (length w) * (/ INR (length w) * / INR (length w))) with (/ INR (length w)) in H by (field; lra).
    apply (Rmult_le_compat_l (INR (length w))) in H; [|lra]. rewrite Rmult_0_r in H.
    replace (INR (length w) * (q - 2 * / INR (length w) * 1 + / INR (length w))) with (INR (length w) * q - 1) in H by (field; lra). lra. }
  split; [exact C|]. split; [nra|]. rewrite <- SS. apply bsum_le. intros i Hi.
  assert (weight w i <= 1). { pose proof (before_one w (S i) D Hi) as B. rewrite before_S in B. pose proof (before_one w i D ltac:(lia)). lra. }
  specialize (W i). nra.
Qed.

(** ** The schemes on finite extended reals are the schemes on the reals *)
Section Transfer.
  Context {Rng : Type}.
  Variable nu : Rng -> R * Rng.
  Definition lifted (g : Rng) : XR * Rng := (Fin (fst (nu g)), snd (nu g)).

  Lemma draws_lifted k : forall g, draws lifted k g = (map Fin (fst (draws nu k g)), snd (draws nu k g)).
  Proof.
    induction k as [|k IH]; intros g; [reflexivity|]. cbn [draws]. unfold lifted at 1. destruct (nu g) as [x g1]. cbn [fst snd]. rewrite IH.
    destruct (draws nu k g1) as [xs g2]. reflexivity.
  Qed.
  Lemma advance_lifted fuel count w p : forall s r, advance fuel count (map Fin w) (Fin p) s (Fin r) = option_map (fun sr => (fst sr, Fin (snd sr))) (advance fuel count w p s r).
  Proof.
    induction fuel as [|fuel IH]; intros s r; [reflexivity|]. cbn [advance]. cbn [leb Xnum Rnum xle]. destruct (Rleb r p); cbn [andb]; [|reflexivity].
    destruct (s + 1 <? count)%nat; [|reflexivity]. rewrite nth_error_map. destruct (nth_error w (s + 1)) as [x|]; cbn [option_map]; [|reflexivity]. apply IH.
  Qed.
  Lemma walk_lifted count w os : (0 < count)%nat -> forall step s r, walk count (map Fin w) (map Fin os) step s (Fin r) = walk count w os step s r.
  Proof.
    intros P. induction os as [|o os IH]; intros step s r; [reflexivity|]. cbn [walk map].
    assert (E : ((Fin o + of_nat step) / of_nat count)%num = Fin ((o + of_nat step) / of_nat count)%num).
    { unfold of_nat. cbn [add div of_Z Xnum Rnum xadd]. apply xdiv_fin. apply not_0_IZR. lia. }
    rewrite E, advance_lifted. destruct (advance _ _ _ _ _ _) as [[s' r']|]; cbn [option_map fst snd]; [|reflexivity]. rewrite IH. reflexivity.
  Qed.
  Lemma reach_lifted steps d : forall s a, reach (map Fin steps) s (Fin a) (Fin d) = reach steps s a d.
  Proof. induction steps as [|x steps IH]; intros s a; [reflexivity|]. cbn [reach map]. cbn [leb add Xnum Rnum xle xadd]. destruct (Rleb _ _); [reflexivity|apply IH]. Qed.
  Lemma copies_lifted room target : forall laid, copies room (Fin laid) (Fin target) = copies room laid target.
  Proof. induction room as [|room IH]; intros laid; [reflexivity|]. cbn [copies]. cbn [ltb add one Xnum Rnum xlt xadd]. destruct (Rltb _ _); [f_equal; apply IH|reflexivity]. Qed.
  Lemma lay_lifted c w : forall room s, lay (Fin c) room (map Fin w) s = lay c room w s.
  Proof.
    induction w as [|x w IH]; intros room s; [reflexivity|]. cbn [lay map]. cbn [mul floor zero Xnum Rnum xmul lift]. rewrite copies_lifted, IH. reflexivity.
  Qed.
  Lemma indices_lifted scheme w g indices : distribution w -> length indices = length w ->
    resample_indices lifted scheme (map Fin w) g indices = resample_indices nu scheme w g indices.
  Proof.
    intros D L. assert (P : (0 < length w)%nat) by (destruct w; [destruct D as [_ D]; cbn in D; lra|cbn; lia]).
    assert (E0 : vget (map Fin w) 0 = Fin (vget w 0)) by (destruct w; [cbn in P; lia|reflexivity]).
    unfold resample_indices. destruct w as [|w0 ws] eqn:EW; [reflexivity|]. cbn [map]. change (Fin w0 :: map Fin ws) with (map Fin (w0 :: ws)). rewrite <- EW in *. clear EW w0 ws. rewrite L.
    destruct scheme.
    - unfold systematic, lifted. destruct (nu g) as [o g1]. cbn [fst snd]. rewrite E0, <- (walk_lifted (length w) w (repeat o (length w))) by exact P.
      replace (map Fin (repeat o (length w))) with (repeat (Fin o) (length w)); [reflexivity|]. generalize (length w). intros k. induction k; cbn; congruence.
    - unfold stratified. rewrite draws_lifted. destruct (draws nu _ g) as [os g1]. cbn [fst snd]. rewrite E0, walk_lifted by exact P. reflexivity.
    - unfold multinomial. rewrite draws_lifted. destruct (draws nu _ g) as [os g1]. cbn [fst snd]. rewrite map_map. do 2 f_equal. apply map_ext. intros d.
      unfold draw_from_weights. change (@zero XR Xnum) with (Fin 0). rewrite reach_lifted, map_length. reflexivity.
    - unfold residual. change (@of_nat XR Xnum (length w)) with (Fin (@of_nat R Rnum (length w))). rewrite lay_lifted, draws_lifted.
      rewrite of_nat_R. set (c := INR (length w)). set (laid := lay c (length w) w 0). destruct (draws nu (length w - length laid) g) as [os g1] eqn:ED. cbn [fst snd].
      rewrite map_map. do 3 f_equal. apply map_ext_in. intros d Hd.
      set (s := fold_left _ w zero).
      assert (ES : fold_left (fun sum x => (sum + (Fin c * x - floor (Fin c * x)))%num) (map Fin w) zero = Fin s).
      { assert (Q : forall l a, fold_left (fun sum x => (sum + (Fin c * x - floor (Fin c * x)))%num) (map Fin l) (Fin a) = Fin (fold_left (fun sum x => (sum + (c * x - floor (c * x)))%num) l a)).
        { intros l. induction l as [|x l IH]; intros a; [reflexivity|]. cbn [fold_left map]. rewrite <- IH. reflexivity. }
        apply Q. }
      rewrite ES. assert (SP : s <> 0).
      { unfold s. rewrite fold_fraction. cbn [zero Rnum]. rewrite Rplus_0_l. rewrite bsum_minus, bsum_scal.
        assert (PN : 0 <= c) by apply pos_INR.
        assert (FL : bsum (length w) (fun i => IZR (Zfloor (c * weight w i))) <= c).
        { apply Rle_trans with (bsum (length w) (fun i => c * weight w i)); [apply bsum_le; intros; apply Zfloor_lb|]. rewrite bsum_scal. destruct D as [_ ->]. lra. }
        destruct (lay_times c w PN (proj1 D) (length w) 0 FL) as [LL _]. fold laid in LL. rewrite <- LL. destruct D as [_ ->].
        assert (length os = (length w - length laid)%nat) by (pose proof (draws_spec nu (length w - length laid) g) as (Q & _); rewrite ED in Q; exact Q).
        assert (LT : (length laid < length w)%nat) by (destruct os; [destruct Hd|cbn in H; lia]). apply lt_INR in LT. unfold c. lra. }
      unfold draw_from_remainders. rewrite map_length, map_map. change (@zero XR Xnum) with (Fin 0).
      rewrite (map_ext (fun x => ((Fin c * Fin x - floor (Fin c * Fin x)) / Fin s)%num) (fun x => Fin ((c * x - floor (c * x)) / s)%num)); [rewrite <- (map_map (fun x => ((c * x - floor (c * x)) / s)%num) Fin), reach_lifted; reflexivity|].
      intros x. cbn [div sub mul floor Xnum Rnum xadd xmul xneg lift]. rewrite xdiv_fin by exact SP. reflexivity.
  Qed.
End Transfer.

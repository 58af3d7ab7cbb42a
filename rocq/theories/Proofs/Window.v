From Coq Require Import ZArith List Bool Reals Lra Lia Permutation Sorted.
From Flocq Require Import Core IEEE754.BinarySingleNaN.
From Verif Require Import Base.Scalar Base.RNum Base.FNum Base.FloatOps Model.Errors Model.Summation Model.Window
  Spec.Stream Spec.Window Proofs.Summation.
Import ListNotations.

(** ** The ring buffer, law-free *)
Section RingLemmas.
  Context {T : Type} {NT : Num T}.

  (** oldest to newest *)
  Definition chron (r : Ring T) : list T := skipn (rg_next r) (rg_samples r) ++ firstn (rg_next r) (rg_samples r).

  Lemma set_nth_split (l : list T) i v : i < length l -> set_nth l i v = firstn i l ++ v :: skipn (S i) l.
  Proof.
    revert i. induction l as [|a l IH]; intros i Hi; cbn in Hi; [lia|].
    destruct i; [reflexivity|]. cbn [set_nth firstn skipn app]. rewrite IH by lia. reflexivity.
  Qed.

  Lemma skipn_firstn_split (l : list T) i : i < length l ->
    exists a, skipn i l = a :: skipn (S i) l /\ firstn (S i) l = firstn i l ++ [a].
  Proof.
    revert i. induction l as [|b l IH]; intros i Hi; cbn in Hi; [lia|].
    destruct i; [exists b; split; reflexivity|]. destruct (IH i) as [a [E1 E2]]; [lia|].
    exists a. split; [exact E1|]. cbn [firstn app]. rewrite <- E2. reflexivity.
  Qed.

  Lemma skipn_len (p q : list T) n : length p = n -> skipn n (p ++ q) = q.
  Proof. intros <-. induction p; cbn; auto. Qed.
  Lemma firstn_len (p q : list T) n : length p = n -> firstn n (p ++ q) = p.
  Proof. intros <-. induction p; cbn; [reflexivity|]. f_equal. assumption. Qed.

  Lemma chron_push w r x : rg_initialized r = true -> length (rg_samples r) = w -> rg_next r < w ->
    chron (ring_push w r x) = tl (chron r) ++ [x] /\
    length (rg_samples (ring_push w r x)) = w /\ rg_next (ring_push w r x) < w /\
    rg_initialized (ring_push w r x) = true.
  Proof.
    destruct r as [l i b]. cbn. intros -> Hl Hi. unfold ring_push. cbn.
    split; [|split; [rewrite set_nth_length; exact Hl|split; [apply Nat.mod_upper_bound; lia|reflexivity]]].
    unfold chron. cbn. destruct (skipn_firstn_split l i) as [a [E1 E2]]; [lia|]. rewrite E1. cbn [app tl].
    rewrite set_nth_split by lia.
    destruct (Nat.eq_dec (i + 1) w) as [E|E].
    - assert (N : skipn (S i) l = []) by (apply skipn_all2; lia). rewrite N.
      rewrite E, Nat.mod_same by lia. cbn. rewrite app_nil_r. reflexivity.
    - rewrite Nat.mod_small by lia. replace (i + 1) with (S i) by lia.
      assert (Lf : length (firstn i l) = i) by (apply firstn_length_le; lia).
      replace (firstn i l ++ x :: skipn (S i) l) with ((firstn i l ++ [x]) ++ skipn (S i) l) by (rewrite <- app_assoc; reflexivity).
      assert (Lf' : length (firstn i l ++ [x]) = S i) by (rewrite app_length, Lf; cbn; lia).
      rewrite (skipn_len (firstn i l ++ [x])), (firstn_len (firstn i l ++ [x])) by assumption.
      rewrite app_assoc. reflexivity.
  Qed.

  (** what is in the buffer after samples [x :: xs] *)
  Lemma ring_window w x xs r0 : 0 < w -> rg_initialized r0 = false ->
    let r := fold_left (ring_push w) (x :: xs) r0 in
    rg_initialized r = true /\ length (rg_samples r) = w /\ rg_next r < w /\ chron r = last_window w x (x :: xs).
  Proof.
    intros Hw Hi. cbv zeta. induction xs as [|y xs IH] using rev_ind.
    - cbn [fold_left]. unfold ring_push. rewrite Hi. cbn. rewrite repeat_length.
      repeat split; try lia. unfold chron, last_window. cbn [rg_next rg_samples skipn firstn length].
      rewrite app_nil_r. destruct w; [lia|]. cbn [repeat app skipn].
      rewrite <- repeat_cons. reflexivity.
    - rewrite app_comm_cons, fold_left_app. destruct IH as (I1 & I2 & I3 & I4).
      set (r := fold_left (ring_push w) (x :: xs) r0) in *. cbn [fold_left].
      destruct (chron_push w r y) as (C1 & C2 & C3 & C4); auto.
      repeat split; auto. rewrite C1, I4. unfold last_window.
      rewrite app_length. cbn [length]. replace (S (length xs) + 1) with (S (length (x :: xs))) by (cbn; lia).
      rewrite app_assoc. set (L := repeat x w ++ x :: xs).
      assert (LL : length (x :: xs) < length L) by (unfold L; rewrite app_length, repeat_length; cbn; lia).
      destruct (skipn_firstn_split L (length (x :: xs)) LL) as [a [E _]].
      replace (S (length xs)) with (length (x :: xs)) by reflexivity.
      rewrite E. cbn [tl]. rewrite skipn_app.
      replace (S (length (x :: xs)) - length L) with 0 by lia. reflexivity.
  Qed.

  Lemma chron_perm r : Permutation (rg_samples r) (chron r).
  Proof.
    unfold chron. rewrite <- (firstn_skipn (rg_next r) (rg_samples r)) at 1. apply Permutation_app_comm.
  Qed.

  Lemma last_window_length w x xs : length (@last_window T w x xs) = w.
  Proof. unfold last_window. rewrite skipn_length, app_length, repeat_length. lia. Qed.

  Lemma chron_nth w r j : length (rg_samples r) = w -> rg_next r < w -> j < w ->
    nth j (chron r) zero = nth ((rg_next r + j) mod w) (rg_samples r) zero.
  Proof.
    intros Hl Hn Hj. unfold chron.
    destruct (Nat.lt_ge_cases j (w - rg_next r)) as [C|C].
    - rewrite app_nth1 by (rewrite skipn_length; lia).
      rewrite Nat.mod_small by lia. rewrite <- (firstn_skipn (rg_next r) (rg_samples r)) at 2.
      rewrite app_nth2 by (rewrite firstn_length_le; lia). rewrite firstn_length_le by lia. f_equal. lia.
    - rewrite app_nth2 by (rewrite skipn_length; lia). rewrite skipn_length, Hl.
      replace ((rg_next r + j) mod w) with (j - (w - rg_next r)).
      2:{ replace (rg_next r + j) with (j - (w - rg_next r) + 1 * w) by lia.
          rewrite Nat.mod_add by lia. rewrite Nat.mod_small by lia. reflexivity. }
      rewrite <- (firstn_skipn (rg_next r) (rg_samples r)) at 2.
      rewrite app_nth1; [reflexivity|]. rewrite firstn_length_le by lia. lia.
  Qed.

  (** histories with resets *)
  Lemma ring_replay w (read : Ring T -> T) h :
    let r := replay (fun r x => (ring_push w r x, read (ring_push w r x))) (ring_reset w) (ring_new w) h in
    r = fold_left (ring_push w) (since_reset h) (ring_new w).
  Proof.
    cbv zeta. induction h as [|e h IH] using rev_ind; [reflexivity|].
    rewrite replay_snoc, since_reset_snoc. destruct e; [|reflexivity].
    cbn [fst]. rewrite IH, fold_left_app. reflexivity.
  Qed.
End RingLemmas.

(** ** Sums over R *)
Lemma fold_left_sum (l : list R) a : fold_left (fun t s => (t + s)%R) l a = (a + fold_right Rplus 0 l)%R.
Proof. revert a. induction l as [|b l IH]; intros a; cbn; [lra|]. rewrite IH. lra. Qed.

Lemma sum_perm (l l' : list R) : Permutation l l' -> fold_right Rplus 0%R l = fold_right Rplus 0%R l'.
Proof. induction 1; cbn; lra. Qed.

(** ** The insertion sort, law-free *)
Section Sort.
  Context {T : Type} {NT : Num T}.
  Local Open Scope num_scope.

  (** insertion into a list kept in descending order *)
  Fixpoint insr (m : T) (rp : list T) : list T :=
    match rp with
    | [] => [m]
    | a :: rp' => if a >? m then a :: insr m rp' else m :: rp
    end.

  Lemma set_nth_app2 (p q : list T) i v : set_nth (p ++ q) (length p + i) v = p ++ set_nth q i v.
  Proof. induction p; cbn; [reflexivity|]. f_equal. assumption. Qed.

  Lemma median_place_spec m pre : forall hole post,
    median_place (pre ++ hole :: post) m (length pre) = rev (insr m (rev pre)) ++ post.
  Proof.
    induction pre as [|a pre IH] using rev_ind; intros hole post; [reflexivity|].
    rewrite app_length, rev_app_distr. cbn [length rev app insr]. rewrite Nat.add_1_r. cbn [median_place].
    rewrite <- app_assoc. cbn [app].
    assert (E : nth (length pre) (pre ++ a :: hole :: post) zero = a).
    { rewrite app_nth2 by lia. rewrite Nat.sub_diag. reflexivity. }
    rewrite E. destruct (a >? m).
    - replace (S (length pre)) with (length pre + 1)%nat by lia. rewrite set_nth_app2. cbn [set_nth].
      rewrite IH. cbn [rev]. rewrite <- app_assoc. reflexivity.
    - replace (S (length pre)) with (length pre + 1)%nat by lia. rewrite set_nth_app2. cbn [set_nth].
      cbn [rev]. rewrite <- !app_assoc. cbn. rewrite rev_involutive. reflexivity.
  Qed.

  Definition isort (l : list T) : list T := fold_left (fun acc x => insr x acc) l [].

  Lemma insr_perm m l : Permutation (m :: l) (insr m l).
  Proof.
    induction l as [|a l IH]; cbn; [reflexivity|]. destruct (a >? m); [|reflexivity].
    rewrite perm_swap. constructor. exact IH.
  Qed.

  Lemma isort_perm l : Permutation l (isort l).
  Proof.
    unfold isort. assert (H : forall l acc, Permutation (l ++ acc) (fold_left (fun acc x => insr x acc) l acc)).
    { clear l. induction l as [|a l IH]; intros acc; [reflexivity|]. cbn [fold_left app].
      rewrite <- IH. rewrite <- insr_perm. apply Permutation_middle. }
    rewrite <- (app_nil_r l) at 1. apply H.
  Qed.

  Lemma median_sort_spec l : median_sort (length l) l = rev (isort l).
  Proof.
    unfold median_sort. destruct l as [|a l]; [reflexivity|]. cbn [length]. rewrite Nat.sub_succ, Nat.sub_0_r.
    assert (H : forall post pre, fold_left (fun sorted placed => median_place sorted (nth placed sorted zero) placed)
        (seq (length pre) (length post)) (rev (isort pre) ++ post) = rev (isort (pre ++ post))).
    { induction post as [|b post IH]; intros pre; [cbn; rewrite !app_nil_r; reflexivity|].
      cbn [length seq fold_left].
      assert (L : length (rev (isort pre)) = length pre).
      { rewrite rev_length. symmetry. apply Permutation_length, isort_perm. }
      assert (E : nth (length pre) (rev (isort pre) ++ b :: post) zero = b).
      { rewrite app_nth2 by lia. rewrite L, Nat.sub_diag. reflexivity. }
      rewrite E. pose proof (median_place_spec b (rev (isort pre)) b post) as M. rewrite L, rev_involutive in M. rewrite M.
      specialize (IH (pre ++ [b])). rewrite app_length in IH. cbn [length] in IH. rewrite Nat.add_1_r in IH.
      rewrite <- app_assoc in IH. cbn [app] in IH. rewrite <- IH. f_equal. f_equal. f_equal.
      unfold isort. rewrite fold_left_app. reflexivity. }
    specialize (H l [a]). cbn [length app] in H. rewrite <- H. reflexivity.
  Qed.

  (** with a key that reflects the comparison, the result is ordered *)
  Context (key : T -> R) (P : T -> Prop).
  Hypothesis Hkey : forall x y, P x -> P y -> (x <? y = true <-> (key x < key y)%R).

  Lemma insr_sorted m l : P m -> Forall P l -> StronglySorted (fun a b => (key b <= key a)%R) l ->
    StronglySorted (fun a b => (key b <= key a)%R) (insr m l).
  Proof.
    intros Pm. induction l as [|a l IH]; intros HF HS; cbn; [repeat constructor|].
    inversion HF as [|? ? Pa HF']; subst. inversion HS as [|? ? HS' Ha]; subst.
    destruct (m <? a) eqn:E.
    - constructor; [apply IH; assumption|]. apply (Hkey m a Pm Pa) in E.
      apply (Permutation_Forall (insr_perm m l)). constructor; [lra|exact Ha].
    - constructor; [exact HS|].
      assert (key a <= key m)%R.
      { destruct (Rle_lt_dec (key a) (key m)) as [Q|Q]; [exact Q|]. apply (Hkey m a Pm Pa) in Q. congruence. }
      constructor; [assumption|]. eapply Forall_impl; [|exact Ha]. cbn. intros; lra.
  Qed.

  Lemma isort_sorted l : Forall P l -> StronglySorted (fun a b => (key b <= key a)%R) (isort l).
  Proof.
    unfold isort. assert (H : forall l acc, Forall P l -> Forall P acc ->
      StronglySorted (fun a b => (key b <= key a)%R) acc ->
      StronglySorted (fun a b => (key b <= key a)%R) (fold_left (fun acc x => insr x acc) l acc)).
    { clear l. induction l as [|a l IH]; intros acc Hl Ha Hs; [exact Hs|]. cbn [fold_left].
      inversion Hl; subst. apply IH; auto; [|apply insr_sorted; assumption].
      apply (Permutation_Forall (insr_perm a acc)). constructor; assumption. }
    intros Hl. apply H; [assumption|constructor|constructor].
  Qed.

  Lemma filter_false {A} (f : A -> bool) l : Forall (fun z => f z = false) l -> filter f l = [].
  Proof. induction 1 as [|a l Ha _ IH]; [reflexivity|]. cbn. rewrite Ha. exact IH. Qed.

  Lemma filter_length_le {A} (f : A -> bool) l : (length (filter f l) <= length l)%nat.
  Proof. induction l as [|a l IH]; cbn; [lia|]. destruct (f a); cbn; lia. Qed.

  Lemma sorted_split pre m post : StronglySorted (fun a b => (key b <= key a)%R) (pre ++ m :: post) ->
    Forall (fun z => (key m <= key z)%R) pre /\ Forall (fun z => (key z <= key m)%R) post.
  Proof.
    induction pre as [|a pre IH]; cbn; intros H; inversion H as [|? ? HS HF]; subst; [split; [constructor|exact HF]|].
    destruct (IH HS) as [A B]. split; [|exact B]. constructor; [|exact A].
    apply Forall_app in HF as [_ HF]. inversion HF; assumption.
  Qed.

  Lemma count_perm (f : T -> bool) l l' : Permutation l l' -> count f l = count f l'.
  Proof.
    unfold count. induction 1 as [|x l l' _ IH|x y l|l l1 l2 _ I1 _ I2]; cbn; auto; try congruence.
    - destruct (f x); cbn; congruence.
    - destruct (f x), (f y); reflexivity.
  Qed.

  Lemma count_app (f : T -> bool) l l' : count f (l ++ l') = (count f l + count f l')%nat.
  Proof. unfold count. rewrite filter_app, app_length. reflexivity. Qed.

  (** the element in the middle of the sorted list *)
  Lemma median_counts w l : length l = w -> (w mod 2 = 1)%nat -> Forall P l ->
    let m := nth (w / 2) (median_sort w l) zero in
    In m l /\ (count (fun z => (z <? m)%num) l <= w / 2)%nat /\ (count (fun z => (m <? z)%num) l <= w / 2)%nat.
  Proof.
    intros Hl Hodd HP m.
    assert (Hw : (w = 2 * (w / 2) + 1)%nat) by (rewrite (Nat.div_mod w 2) at 1 by lia; lia).
    assert (Em : m = nth (w / 2) (rev (isort l)) zero) by (unfold m; rewrite <- Hl at 2; rewrite median_sort_spec; reflexivity).
    clearbody m. subst m.
    pose proof (isort_perm l) as HPm. pose proof (isort_sorted l HP) as HS.
    assert (HL : length (isort l) = w) by (rewrite <- (Permutation_length HPm); exact Hl).
    set (k := (w / 2)%nat) in *.
    rewrite rev_nth by lia. rewrite HL. replace (w - S k)%nat with k by lia.
    destruct (nth_split (isort l) zero (n := k)) as (pre & post & E & Lp); [lia|].
    set (m := nth k (isort l) zero) in *.
    assert (HPs : Forall P (isort l)) by (apply (Permutation_Forall HPm); exact HP).
    assert (Lq : length post = k). { rewrite E, app_length in HL. cbn in HL. lia. }
    assert (Pm : P m). { rewrite E in HPs. apply Forall_app in HPs as [_ HPs]. inversion HPs; assumption. }
    assert (Ppre : Forall P pre) by (rewrite E in HPs; apply Forall_app in HPs; apply HPs).
    assert (Ppost : Forall P post). { rewrite E in HPs. apply Forall_app in HPs as [_ HPs]. inversion HPs; assumption. }
    rewrite E in HS. destruct (sorted_split _ _ _ HS) as [Spre Spost].
    split; [|split].
    - apply (Permutation_in m (Permutation_sym HPm)). rewrite E. apply in_or_app. right. left. reflexivity.
    - rewrite (count_perm _ _ _ HPm), E, count_app. unfold count at 1. rewrite filter_false; cbn [length].
      2:{ rewrite Forall_forall in *. intros z Hz. destruct (z <? m) eqn:Q; [|reflexivity].
          apply Hkey in Q; auto. specialize (Spre z Hz). lra. }
      unfold count. cbn [filter]. destruct (m <? m) eqn:Q; [apply Hkey in Q; auto; lra|].
      pose proof (filter_length_le (fun z => z <? m) post). lia.
    - rewrite (count_perm _ _ _ HPm), E, count_app. unfold count at 2. cbn [filter].
      destruct (m <? m) eqn:Q; [apply Hkey in Q; auto; lra|]. rewrite (filter_false _ post); cbn [length].
      2:{ rewrite Forall_forall in *. intros z Hz. destruct (m <? z) eqn:Q'; [|reflexivity].
          apply Hkey in Q'; auto. specialize (Spost z Hz). lra. }
      unfold count. pose proof (filter_length_le (fun z => m <? z) pre). lia.
  Qed.
End Sort.

(** Each output is some element of the window, for any scalar. *)
Lemma median_in {T} {NT : Num T} w (l : list T) : length l = w -> 0 < w -> In (nth (w / 2) (median_sort w l) zero) l.
Proof.
  intros Hl Hw. rewrite <- Hl, median_sort_spec. apply (Permutation_in _ (Permutation_sym (isort_perm l))).
  apply in_rev. apply nth_In. rewrite rev_length, <- (Permutation_length (isort_perm l)).
  apply Nat.div_lt; lia.
Qed.

(** A key for floats that are not NaN. *)
Section FloatKey.
  Context (prec emax : Z).
  Context {Hp : Prec_gt_0 prec} {He : Prec_lt_emax prec emax}.
  Notation fl := (binary_float prec emax).

  Definition fkey (x : fl) : R :=
    match x with
    | B754_infinity s => if s then (- bpow radix2 emax)%R else bpow radix2 emax
    | _ => B2R x
    end.

  Lemma fkey_bounds (x : fl) : ffinite x = true -> (- bpow radix2 emax < fkey x < bpow radix2 emax)%R.
  Proof.
    intros F. assert (E : fkey x = B2R x) by (destruct x; try discriminate; reflexivity). rewrite E.
    pose proof (abs_B2R_lt_emax prec emax x) as H. unfold Rabs in H. destruct (Rcase_abs _); lra.
  Qed.

  Lemma fkey_ltb (x y : fl) : notnan prec emax x -> notnan prec emax y -> (Bltb x y = true <-> (fkey x < fkey y)%R).
  Proof.
    unfold notnan. intros Nx Ny.
    destruct (BinarySingleNaN.is_finite x) eqn:Fx, (BinarySingleNaN.is_finite y) eqn:Fy.
    - rewrite Bltb_correct by assumption.
      assert (E : forall z : fl, ffinite z = true -> fkey z = B2R z) by (intros [| | |]; try discriminate; reflexivity).
      rewrite !E by assumption. destruct (Rlt_bool_spec (B2R x) (B2R y)); split; intros; auto; try discriminate; lra.
    - pose proof (fkey_bounds x Fx). destruct y as [s|s| |s m e B]; try discriminate.
      destruct x as [sx|sx| |sx mx ex Bx]; try discriminate; destruct s; cbn; split; intros; auto; try discriminate; cbn in *; try lra.
    - pose proof (fkey_bounds y Fy). destruct x as [s|s| |s m e B]; try discriminate.
      destruct y as [sy|sy| |sy my ey By]; try discriminate; destruct s; cbn; split; intros; auto; try discriminate; cbn in *; try lra.
    - destruct x as [s|s| |s m e B]; try discriminate. destruct y as [sy|sy| |sy my ey By]; try discriminate.
      pose proof (bpow_gt_0 radix2 emax).
      destruct s, sy; cbn; split; intros; auto; try discriminate; lra.
  Qed.
End FloatKey.

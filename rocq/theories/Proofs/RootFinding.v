(** Bisection, Brent and Newton: what a report says is true. *)
From Coq Require Import ZArith List Bool Arith Reals Ranalysis5 Lra Lia.
From Coquelicot Require Import Coquelicot.
From Verif Require Import Base.Scalar Base.RNum Model.Errors Model.RootFinding.
Import ListNotations.
Local Open Scope R_scope.

(** ** Over any scalar *)
Section Any.
  Context {T : Type} {NT : Num T}.

  Lemma same_sign_false (a b : T) : same_sign a b = false <-> leb zero a = negb (leb zero b).
  Proof. unfold same_sign. destruct (leb zero a), (leb zero b); cbn; split; congruence. Qed.

  Lemma bisect_loop_ok f s : forall budget iter lower upper r,
    bisect_loop f s budget iter lower (f lower) upper = Ok r -> same_sign (f lower) (f upper) = false ->
    residual r = f (root r) /\ is_finite (residual r) = true /\ (iter <= iterations r < iter + budget)%nat /\
    (termination r = ResidualTolerance /\ leb (abs (residual r)) (ftol s) = true \/
     termination r = BracketWidth /\ exists lo hi,
       same_sign (f lo) (f hi) = false /\ root r = add lo (mul (sub hi lo) half) /\
       leb (sub hi lo) (mul (xtol s) (add one (abs (root r)))) = true).
  Proof.
    induction budget as [|budget IH]; intros iter lower upper r H S; cbn [bisect_loop] in H; [discriminate|].
    set (mid := add lower (mul (sub upper lower) half)) in *.
    destruct (is_finite (f mid)) eqn:F; cbn [negb] in H; [|discriminate].
    destruct (leb (abs (f mid)) (ftol s)) eqn:E1.
    { injection H as <-. cbn. repeat split; auto; try lia. }
    destruct (leb (sub upper lower) _) eqn:E2.
    { injection H as <-. cbn. repeat split; auto; try lia. right. split; auto. exists lower, upper. auto. }
    destruct (same_sign (f mid) (f lower)) eqn:E3.
    - edestruct IH as (A & B & C & D); [exact H| |repeat split; auto; lia].
      unfold same_sign in *. destruct (leb zero (f lower)), (leb zero (f mid)), (leb zero (f upper)); cbn in *; congruence.
    - edestruct IH as (A & B & C & D); [exact H| |repeat split; auto; lia].
      unfold same_sign in *. destruct (leb zero (f lower)), (leb zero (f mid)); cbn in *; congruence.
  Qed.

  Definition brent_inv (f : T -> T) (st : BrentState) : Prop :=
    bfa st = f (ba st) /\ bfb st = f (bb st) /\ same_sign (bfa st) (bfb st) = false.
  Lemma brent_update_inv f st trial flag : brent_inv f st -> brent_inv f (brent_update st trial (f trial) flag).
  Proof.
    intros (A & B & S). unfold brent_update, brent_inv.
    destruct (same_sign (bfa st) (f trial)) eqn:E.
    - assert (S' : same_sign (f trial) (bfb st) = false).
      { unfold same_sign in *. destruct (leb zero (bfa st)), (leb zero (f trial)), (leb zero (bfb st)); cbn in *; congruence. }
      destruct (ltb (abs (f trial)) (abs (bfb st))); cbn; repeat split; auto.
      unfold same_sign in *. destruct (leb zero (bfb st)), (leb zero (f trial)); cbn in *; congruence.
    - destruct (ltb (abs (bfa st)) (abs (f trial))); cbn; repeat split; auto.
      unfold same_sign in *. destruct (leb zero (bfa st)), (leb zero (f trial)); cbn in *; congruence.
  Qed.
  Definition brent_report (f : T -> T) (s : Settings T) (r : RootReport T) : Prop :=
    residual r = f (root r) /\
    (termination r = ResidualTolerance /\ leb (abs (residual r)) (ftol s) = true \/
     termination r = BracketWidth /\ exists other, same_sign (f other) (f (root r)) = false /\
       let tol := mul (xtol s) (add one (abs (root r))) in
       leb (abs (mul (sub other (root r)) half)) tol = true \/ leb (abs (sub (root r) other)) tol = true).
  Lemma brent_done_ok f s st iter r : brent_inv f st -> brent_done s st iter = Some r ->
    root r = bb st /\ iterations r = iter /\ brent_report f s r.
  Proof.
    intros (A & B & S) H. unfold brent_done in H. destruct (leb (abs (bfb st)) (ftol s)) eqn:E.
    - injection H as <-. unfold brent_report. cbn. repeat split; auto.
    - destruct (leb _ _ || leb _ _)%bool eqn:E2; [|discriminate]. injection H as <-. unfold brent_report. cbn. repeat split; auto.
      right. split; auto. exists (ba st). split; [rewrite <- A, <- B; exact S|]. apply orb_true_iff in E2. exact E2.
  Qed.
  Lemma brent_loop_ok f s : forall budget iter st r, (1 <= iter)%nat -> brent_loop f s budget iter st = Ok r -> brent_inv f st ->
    (iter - 1 <= iterations r < iter + budget)%nat /\ brent_report f s r.
  Proof.
    induction budget as [|budget IH]; intros iter st r Hi H I; cbn [brent_loop] in H; [discriminate|].
    destruct (brent_done s st (iter - 1)) eqn:D1.
    { injection H as <-. destruct (brent_done_ok _ _ _ _ _ I D1) as (_ & C & R). split; [lia|exact R]. }
    destruct (brent_trial _ st) as [trial flag]. destruct (negb (is_finite (f trial))); [discriminate|].
    pose proof (brent_update_inv f st trial flag I) as I'.
    destruct (brent_done s (brent_update st trial (f trial) flag) iter) eqn:D2.
    { injection H as <-. destruct (brent_done_ok _ _ _ _ _ I' D2) as (_ & C & R). split; [lia|exact R]. }
    destruct (IH (S iter) _ _ ltac:(lia) H I') as [C R]. split; [lia|exact R].
  Qed.

  (** *** Newton *)
  Lemma newton_search_spec f bt x res step : forall fuel alpha tries,
    let '(tr, r) := newton_search fuel f bt x res step alpha tries in
    (length tr <= fuel)%nat /\
    ((tries <= MAX_BACKTRACK)%nat -> (length tr <= MAX_BACKTRACK + 1 - tries)%nat) /\
    ((MAX_BACKTRACK + 1 - tries < fuel + 1)%nat -> (0 < fuel)%nat -> r <> None) /\
    (bt = false -> (length tr <= 1)%nat) /\
    (r <> Some Panic) /\
    (forall c t, r = Some (Ok (c, t)) -> t = f c /\ is_finite t = true /\
       (bt = true -> ltb (abs t) (abs res) = true \/ length tr = (MAX_BACKTRACK + 1 - tries)%nat \/ (MAX_BACKTRACK < tries)%nat)).
  Proof.
    induction fuel as [|fuel IH]; intros alpha tries; cbn [newton_search].
    - cbn. split; [lia|]. split; [intros; lia|]. split; [intros; lia|]. split; [lia|]. split; [discriminate|]. intros; discriminate.
    - set (cand := sub x (mul alpha step)).
      destruct bt; cbn [negb].
      + destruct (_ || _)%bool eqn:E.
        * cbn [length]. split; [lia|]. split; [intros; lia|]. split; [intros; discriminate|]. split; [lia|].
          destruct (is_finite (f cand)) eqn:F; cbn [negb]; (split; [discriminate|]); [|intros; discriminate].
          intros c t H. injection H as <- <-. split; [reflexivity|]. split; [exact F|]. intros _.
          apply orb_true_iff in E. destruct E as [E|E]. apply andb_true_iff in E as [_ E]; auto. apply Nat.leb_le in E. right. lia.
        * apply orb_false_iff in E as [E Et]. apply Nat.leb_gt in Et.
          specialize (IH (mul alpha half) (S tries)). destruct (newton_search fuel f true x res step (mul alpha half) (S tries)) as [tr r].
          destruct IH as (A & B & C & D & P & Q). cbn [length]. split; [lia|]. split; [intros; specialize (B ltac:(lia)); lia|].
          split; [intros; apply C; lia|]. split; [intros; discriminate|]. split; [exact P|].
          intros c t H. destruct (Q c t H) as (Q1 & Q2 & Q3). split; [exact Q1|]. split; [exact Q2|]. intros X. specialize (Q3 X). destruct Q3 as [Q3|Q3]; auto. right. lia.
      + cbn [length]. split; [lia|]. split; [intros; lia|]. split; [intros; discriminate|]. split; [lia|].
        destruct (is_finite (f cand)) eqn:F; cbn [negb]; (split; [discriminate|]); [|intros; discriminate].
        intros c t H. injection H as <- <-. split; [reflexivity|]. split; [exact F|]. discriminate.
  Qed.

  Lemma newton_loop_ok fuel f d s bt : (MAX_BACKTRACK < fuel)%nat -> (forall x, d x <> Panic) -> forall budget iter x,
    let '(tr, r) := newton_loop fuel f d s bt budget iter x (f x) in
    (length tr <= budget * (if bt then MAX_BACKTRACK + 1 else 1))%nat /\ r <> None /\ r <> Some Panic /\
    (is_finite (f x) = true -> forall rep, r = Some (Ok rep) ->
       residual rep = f (root rep) /\ is_finite (residual rep) = true /\ (iter <= iterations rep < iter + budget)%nat /\
       (length tr <= (iterations rep + 1 - iter) * (if bt then MAX_BACKTRACK + 1 else 1))%nat /\
       (termination rep = ResidualTolerance /\ leb (abs (residual rep)) (ftol s) = true \/
        termination rep = StepTolerance /\ exists previous,
          leb (abs (sub (root rep) previous)) (mul (xtol s) (add one (abs (root rep)))) = true)).
  Proof.
    intros Hf Hd. induction budget as [|budget IH]; intros iter x; cbn [newton_loop].
    - cbn. split; [lia|]. split; [discriminate|]. split; [discriminate|]. intros; discriminate.
    - destruct (leb (abs (f x)) (ftol s)) eqn:E1.
      { cbn [length]. split; [lia|]. split; [discriminate|]. split; [discriminate|]. intros Fx rep H. injection H as <-. cbn. repeat split; auto; lia. }
      destruct (d x) as [dx|e|] eqn:Dx; [|cbn [length]; split; [lia|]; split; [discriminate|]; split; [discriminate|]; intros; discriminate|exfalso; exact (Hd x Dx)].
      destruct (negb (is_finite dx)); [cbn [length]; split; [lia|]; split; [discriminate|]; split; [discriminate|]; intros; discriminate|].
      destruct (eqb dx zero); [cbn [length]; split; [lia|]; split; [discriminate|]; split; [discriminate|]; intros; discriminate|].
      pose proof (newton_search_spec f bt x (f x) (div (f x) dx) fuel one 0) as Sp.
      destruct (newton_search fuel f bt x (f x) (div (f x) dx) one 0) as [tr0 r0].
      destruct Sp as (L0 & L1 & L2 & L3 & P & Q). specialize (L1 ltac:(lia)). specialize (L2 ltac:(lia) ltac:(lia)).
      assert (Lt : (length tr0 <= (if bt then MAX_BACKTRACK + 1 else 1))%nat) by (destruct bt; [lia|auto]).
      set (m := (if bt then MAX_BACKTRACK + 1 else 1)%nat) in *.
      destruct r0 as [[[c t]|e|]|].
      + destruct (Q c t eq_refl) as (-> & Ft & _).
        destruct (leb (abs (sub c x)) _) eqn:E2.
        * split; [cbn; lia|]. split; [discriminate|]. split; [discriminate|]. intros Fx rep H. injection H as <-. cbn.
          repeat split; auto; try lia. right. split; auto. exists x. exact E2.
        * specialize (IH (S iter) c). destruct (newton_loop fuel f d s bt budget (S iter) c (f c)) as [tr' r'].
          destruct IH as (A & B & C & R). rewrite app_length. split; [cbn; lia|]. split; [exact B|]. split; [exact C|].
          intros Fx rep H. destruct (R Ft rep H) as (R1 & R2 & R3 & R4 & R5).
          split; [exact R1|]. split; [exact R2|]. split; [lia|]. split; [|exact R5].
          replace (iterations rep + 1 - iter)%nat with (S (iterations rep + 1 - S iter)) by lia. cbn. lia.
      + split; [cbn; lia|]. split; [discriminate|]. split; [discriminate|]. intros; discriminate.
      + exfalso. apply P. reflexivity.
      + exfalso. apply L2. reflexivity.
  Qed.
End Any.

(** ** Where the brackets are *)
Section Bracket.
  Context {T : Type} {NT : Num T} (B : T -> T -> Prop).
  Hypothesis split_bracket : forall lo hi, B lo hi ->
    B lo (add lo (mul (sub hi lo) half)) /\ B (add lo (mul (sub hi lo) half)) hi.

  Lemma bisect_loop_bracket f s : forall budget iter lower upper r,
    bisect_loop f s budget iter lower (f lower) upper = Ok r -> same_sign (f lower) (f upper) = false -> B lower upper ->
    exists lo hi, B lo (root r) /\ B (root r) hi /\ same_sign (f lo) (f hi) = false /\
      (termination r = BracketWidth -> leb (sub hi lo) (mul (xtol s) (add one (abs (root r)))) = true).
  Proof.
    induction budget as [|budget IH]; intros iter lower upper r H S V; cbn [bisect_loop] in H; [discriminate|].
    destruct (split_bracket _ _ V) as [V1 V2].
    set (mid := add lower (mul (sub upper lower) half)) in *.
    destruct (is_finite (f mid)) eqn:F; cbn [negb] in H; [|discriminate].
    destruct (leb (abs (f mid)) (ftol s)) eqn:E1.
    { injection H as <-. cbn. exists lower, upper. repeat split; auto. discriminate. }
    destruct (leb (sub upper lower) _) eqn:E2.
    { injection H as <-. cbn. exists lower, upper. auto. }
    destruct (same_sign (f mid) (f lower)) eqn:E3.
    - apply (IH _ _ _ _ H); auto.
      unfold same_sign in *. destruct (leb zero (f lower)), (leb zero (f mid)), (leb zero (f upper)); cbn in *; congruence.
    - apply (IH _ _ _ _ H); auto.
      unfold same_sign in *. destruct (leb zero (f lower)), (leb zero (f mid)); cbn in *; congruence.
  Qed.
End Bracket.

(** ** Over R *)
Lemma bisect_loop_S f s budget iter lower upper :
  bisect_loop f s (S budget) iter lower (f lower) upper =
  let mid := lower + (upper - lower) * / 2 in
  if Rleb (Rabs (f mid)) (ftol s) then Ok (mkReport mid (f mid) iter ResidualTolerance)
  else if Rleb (upper - lower) (xtol s * (1 + Rabs mid)) then Ok (mkReport mid (f mid) iter BracketWidth)
  else if same_sign (f mid) (f lower) then bisect_loop f s budget (S iter) mid (f mid) upper
  else bisect_loop f s budget (S iter) lower (f lower) mid.
Proof. reflexivity. Qed.
Lemma bisect_loop_converges f s : 0 <= xtol s -> forall budget iter lower upper, lower <= upper ->
  upper - lower <= xtol s * 2 ^ budget ->
  exists r, bisect_loop f s (S budget) iter lower (f lower) upper = Ok r.
Proof.
  intros X. induction budget as [|budget IH]; intros iter lower upper O W; rewrite bisect_loop_S; cbv zeta;
    set (mid := lower + (upper - lower) * / 2);
    (destruct (Rleb (Rabs (f mid)) (ftol s)); [eexists; reflexivity|]).
  - replace (Rleb (upper - lower) (xtol s * (1 + Rabs mid))) with true; [eexists; reflexivity|].
    symmetry. apply Rleb_true. cbn in W. pose proof (Rabs_pos mid). nra.
  - destruct (Rleb (upper - lower) (xtol s * (1 + Rabs mid))); [eexists; reflexivity|].
    cbn [pow] in W. destruct (same_sign (f mid) (f lower)); apply IH; unfold mid; nra.
Qed.

Lemma zero_between f lo hi : lo <= hi -> (forall x, lo <= x <= hi -> continuity_pt f x) -> @same_sign R Rnum (f lo) (f hi) = false ->
  exists z, lo <= z <= hi /\ f z = 0.
Proof.
  intros O C S. unfold same_sign in S. rnum. destruct (Req_dec (f lo) 0) as [E|E]; [exists lo; split; [lra|exact E]|].
  destruct (Req_dec (f hi) 0) as [E'|E']; [exists hi; split; [lra|exact E']|].
  assert (L : lo < hi). { destruct (Rle_lt_or_eq_dec _ _ O); auto. subst. destruct (Rleb 0 (f hi)); discriminate. }
  unfold Rleb in S. destruct (Rle_dec 0 (f lo)), (Rle_dec 0 (f hi)); try discriminate.
  - destruct (IVT_interv (fun x => - f x) lo hi) as (z & Z1 & Z2); auto; try lra.
    { intros a Ha. apply continuity_pt_opp. apply C. exact Ha. }
    exists z. split; [exact Z1|lra].
  - destruct (IVT_interv f lo hi) as (z & Z1 & Z2); auto; try lra. exists z. auto.
Qed.

Lemma between_sym a b x : Rmin a b <= x <= Rmax a b -> Rmin b a <= x <= Rmax b a.
Proof. rewrite Rmin_comm, Rmax_comm. auto. Qed.
Lemma brent_trial_between tol (st : @BrentState R) : Rmin (ba st) (bb st) <= fst (brent_trial tol st) <= Rmax (ba st) (bb st).
Proof.
  unfold brent_trial. match goal with |- context [is_finite ?t] => set (trial := t) end. rnum. cbn [negb orb].
  set (bound1 := ba st * / 2 * / 2 * 3 + bb st * / 2 * / 2).
  assert (B1 : Rmin (ba st) (bb st) <= bound1 <= Rmax (ba st) (bb st)).
  { unfold bound1, Rmin, Rmax. destruct (Rle_dec (ba st) (bb st)); lra. }
  assert (Bh : Rmin (ba st) (bb st) <= ba st * / 2 + bb st * / 2 <= Rmax (ba st) (bb st)).
  { unfold Rmin, Rmax. destruct (Rle_dec (ba st) (bb st)); lra. }
  assert (Bb : Rmin (ba st) (bb st) <= bb st <= Rmax (ba st) (bb st)).
  { unfold Rmin, Rmax. destruct (Rle_dec (ba st) (bb st)); lra. }
  destruct (Rleb bound1 (bb st)) eqn:E;
    match goal with |- context [if ?c then _ else _] => destruct c eqn:K end; cbn [fst]; auto;
    repeat (apply orb_false_iff in K as [K ?]); apply Rltb_false in K; 
    match goal with H : Rltb _ trial = false |- _ => apply Rltb_false in H end; lra.
Qed.

Lemma brent_loop_bracket f s A B : forall budget iter st r, brent_loop f s budget iter st = Ok r -> brent_inv f st ->
  A <= ba st <= B -> A <= bb st <= B ->
  A <= root r <= B /\ (termination r = BracketWidth -> exists other, A <= other <= B /\ same_sign (f other) (f (root r)) = false /\
    Rabs (root r - other) <= 2 * (xtol s * (1 + Rabs (root r)))).
Proof.
  assert (Dn : forall st iter r, brent_inv f st -> A <= ba st <= B -> A <= bb st <= B -> brent_done s st iter = Some r ->
    A <= root r <= B /\ (termination r = BracketWidth -> exists other, A <= other <= B /\ same_sign (f other) (f (root r)) = false /\
    Rabs (root r - other) <= 2 * (xtol s * (1 + Rabs (root r))))).
  { intros st iter r (Ia & Ib & S) Ha Hb H. unfold brent_done in H. rnum.
    destruct (Rleb (Rabs (bfb st)) (ftol s)). { injection H as <-. cbn. split; [exact Hb|discriminate]. }
    destruct (_ || _)%bool eqn:E; [|discriminate]. injection H as <-. cbn. split; [exact Hb|]. intros _.
    exists (ba st). split; [exact Ha|]. split; [rewrite <- Ia, <- Ib; exact S|].
    set (t := xtol s * (1 + Rabs (bb st))) in *. apply orb_true_iff in E as [E|E]; apply Rleb_true in E.
    - rewrite Rabs_mult in E. rewrite (Rabs_right (/2)) in E by lra. rewrite Rabs_minus_sym. lra.
    - pose proof (Rabs_pos (bb st - ba st)). lra. }
  induction budget as [|budget IH]; intros iter st r H I Ha Hb; cbn [brent_loop] in H; [discriminate|].
  destruct (brent_done s st (iter - 1)) eqn:D1. { injection H as <-. exact (Dn _ _ _ I Ha Hb D1). }
  pose proof (brent_trial_between (mul (xtol s) (add one (abs (bb st)))) st) as Bt.
  destruct (brent_trial _ st) as [trial flag]. cbn [fst] in Bt. destruct (negb (is_finite (f trial))); [discriminate|].
  pose proof (brent_update_inv f st trial flag I) as I'.
  assert (Ht : A <= trial <= B). { unfold Rmin, Rmax in Bt. destruct (Rle_dec (ba st) (bb st)); lra. }
  assert (Hab : A <= ba (brent_update st trial (f trial) flag) <= B /\ A <= bb (brent_update st trial (f trial) flag) <= B).
  { unfold brent_update. destruct (same_sign (bfa st) (f trial)).
    - destruct (ltb (abs (f trial)) (abs (bfb st))); cbn; auto.
    - destruct (ltb (abs (bfa st)) (abs (f trial))); cbn; auto. }
  destruct (brent_done s (brent_update st trial (f trial) flag) iter) eqn:D2.
  { injection H as <-. exact (Dn _ _ _ I' (proj1 Hab) (proj2 Hab) D2). }
  exact (IH _ _ _ H I' (proj1 Hab) (proj2 Hab)).
Qed.

(** The search of real_roots_in. *)
From Coq Require Import ZArith List Bool Arith Reals Lra Lia Permutation Sorted Classical_Prop.
From Coquelicot Require Import Coquelicot.
From Verif Require Import Base.Scalar Base.Lists Base.RNum Base.Series Base.PolyR Model.Errors Model.Polynomial Model.Roots
  Spec.Polynomial Spec.Roots Proofs.DiffAlg Proofs.Polynomial Proofs.Roots Proofs.Sturm.
Import ListNotations.
Local Open Scope R_scope.

(** ** Bookkeeping, for any scalar *)
Section Any.
  Context {T : Type} {NT : Num T}.
  Variables (cap : nat) (chain : list (list T)) (tol : T).
  Lemma close_in_remaining : forall n low high root n', close_in chain tol n low high = Some (root, n') -> (n' <= n)%nat.
  Proof.
    induction n as [|n IH]; intros low high root n'; cbn [close_in]; destruct (ltb _ _); try discriminate; try (intros H; injection H; lia).
    destruct (Nat.eqb _ 1); intros H; apply IH in H; lia.
  Qed.
  Lemma close_in_more k : forall n low high root n', close_in chain tol n low high = Some (root, n') -> close_in chain tol (n + k) low high = Some (root, (n' + k)%nat).
  Proof.
    induction n as [|n IH]; intros low high root n'.
    - cbn [close_in]. destruct (ltb tol (sub high low)) eqn:E; [discriminate|]. intros H. injection H as <- <-. destruct k; cbn [close_in Nat.add]; rewrite E; reflexivity.
    - cbn [close_in Nat.add]. destruct (ltb tol (sub high low)); [|intros H; injection H as <- <-; reflexivity].
      destruct (Nat.eqb _ 1); apply IH.
  Qed.
  Lemma add_length (pending : list (T * T)) r : (length (add_range cap pending r) <= S (length pending))%nat.
  Proof. unfold add_range. destruct (Nat.ltb _ _); [rewrite app_length; cbn|]; lia. Qed.
  Lemma rev_nil_iff {A} (l : list A) : rev l = [] -> l = [].
  Proof. intros H. rewrite <- (rev_involutive l), H. reflexivity. Qed.
  Lemma rev_cons_last {A} (l : list A) x m : rev l = x :: m -> l = rev m ++ [x].
  Proof. intros H. rewrite <- (rev_involutive l), H. reflexivity. Qed.
  (** it always ends: every round takes a range away, or pays for adding one *)
  Lemma loop_ends budget : forall fuel pending roots remaining, (2 * remaining + length pending < fuel)%nat ->
    exists r, roots_loop fuel cap chain tol budget pending roots remaining = Some r.
  Proof.
    induction fuel as [|fuel IH]; intros pending roots remaining H; [lia|]. cbn [roots_loop].
    destruct (rev pending) as [|[lo up] below] eqn:E; [eauto|]. apply rev_cons_last in E. rewrite E, app_length in H. cbn [length] in H.
    destruct (Nat.eqb _ 1).
    - destruct (close_in chain tol remaining lo up) as [[root n']|] eqn:C; [|eauto]. apply close_in_remaining in C. apply IH. lia.
    - destruct remaining as [|n]; [eauto|]. apply IH. cbv zeta.
      assert (A : forall pd a b, (length (if Nat.ltb 0 (count_between chain a b) then add_range cap pd (a, b) else pd) <= S (length pd))%nat)
        by (intros pd a b; destruct (Nat.ltb _ _); [apply add_length|lia]).
      eapply Nat.le_lt_trans; [apply Nat.add_le_mono_l; eapply Nat.le_trans; [apply A|apply le_n_S, A]|]. lia.
  Qed.
  (** an answer does not change when the budget is larger *)
  Lemma loop_more b1 b2 k : forall fuel1 pending roots remaining r, roots_loop fuel1 cap chain tol b1 pending roots remaining = Some (Ok r) ->
    forall fuel2, (fuel1 <= fuel2)%nat -> roots_loop fuel2 cap chain tol b2 pending roots (remaining + k) = Some (Ok r).
  Proof.
    induction fuel1 as [|fuel1 IH]; intros pending roots remaining r; [discriminate|]. intros H fuel2 Hf. destruct fuel2 as [|fuel2]; [lia|].
    cbn [roots_loop] in *. destruct (rev pending) as [|[lo up] below]; [exact H|].
    destruct (Nat.eqb _ 1).
    - destruct (close_in chain tol remaining lo up) as [[root n']|] eqn:C; [|discriminate]. rewrite (close_in_more k _ _ _ _ _ C). apply IH; [exact H|lia].
    - destruct remaining as [|n]; [discriminate|]. cbn [Nat.add]. apply IH; [exact H|lia].
  Qed.
  Lemma loop_error budget : forall fuel pending roots remaining e, roots_loop fuel cap chain tol budget pending roots remaining = Some (Err e) -> e = PoDidNotConverge budget.
  Proof.
    induction fuel as [|fuel IH]; intros pending roots remaining e; [discriminate|]. cbn [roots_loop].
    destruct (rev pending) as [|[lo up] below]; [discriminate|]. destruct (Nat.eqb _ 1).
    - destruct (close_in chain tol remaining lo up) as [[root n']|]; [apply IH|]. intros H. injection H as <-. reflexivity.
    - destruct remaining; [intros H; injection H as <-; reflexivity|apply IH].
  Qed.
  Lemma loop_no_panic budget : forall fuel pending roots remaining, roots_loop fuel cap chain tol budget pending roots remaining <> Some Panic.
  Proof.
    induction fuel as [|fuel IH]; intros pending roots remaining; [discriminate|]. cbn [roots_loop].
    destruct (rev pending) as [|[lo up] below]; [discriminate|]. destruct (Nat.eqb _ 1).
    - destruct (close_in chain tol remaining lo up) as [[root n']|]; [apply IH|discriminate].
    - destruct remaining; [discriminate|apply IH].
  Qed.
End Any.

(** ** Matching two lists after sorting *)
Lemma Forall2_len {A B} (P : A -> B -> Prop) l m : Forall2 P l m -> length l = length m.
Proof. induction 1; cbn; auto. Qed.
Definition close (e u v : R) : Prop := Rabs (u - v) <= e.
Lemma ins_head (a : R) l : StronglySorted Rge (a :: l) -> ins a l = a :: l.
Proof.
  intros S. destruct l as [|b l]; [reflexivity|]. cbn [ins]. rnum. inversion S; subst. inversion H2; subst. rewrite (proj2 (Rleb_true b a)) by lra. reflexivity.
Qed.
Lemma close_alt e u v : close e u v <-> - e <= u - v <= e.
Proof. unfold close. split; [intros H; apply Rabs_le_between; exact H|intros H; apply Rabs_le_between; exact H]. Qed.
Lemma ins_close e : forall F G f g, StronglySorted Rge F -> StronglySorted Rge G -> Forall2 (close e) F G -> close e f g -> Forall2 (close e) (ins f F) (ins g G).
Proof.
  induction F as [|a F IH]; intros G f g SF SG H C; inversion H as [|? b ? G' Cab HFG]; subst; [cbn; auto|].
  inversion SF as [|? ? SF' FF]; subst. inversion SG as [|? ? SG' FG]; subst.
  cbn [ins]. rnum. destruct (Rleb a f) eqn:E1; [apply Rleb_true in E1|apply Rleb_false in E1]; destruct (Rleb b g) eqn:E2; [apply Rleb_true in E2|apply Rleb_false in E2|apply Rleb_true in E2|apply Rleb_false in E2].
  - constructor; auto.
  - rewrite close_alt in C, Cab. constructor; [rewrite close_alt; lra|]. rewrite <- (ins_head a F SF). apply IH; auto. rewrite close_alt; lra.
  - rewrite close_alt in C, Cab. constructor; [rewrite close_alt; lra|]. rewrite <- (ins_head b G' SG). apply IH; auto. rewrite close_alt; lra.
  - constructor; [auto|]. apply IH; auto.
Qed.
Lemma Rge_trans' : Relations_1.Transitive Rge.
Proof. intros a b c; lra. Qed.
Lemma sort_close e F G : Forall2 (close e) F G -> Forall2 (close e) (sort_ascending F) (sort_ascending G).
Proof.
  intros H. rewrite !sort_ascending_isort.
  assert (A : Forall2 (close e) (isort F) (isort G)).
  { unfold isort. assert (B : forall A B, Sorted Rge A -> Sorted Rge B -> Forall2 (close e) A B -> Forall2 (close e) (fold_left (fun rp c => ins c rp) F A) (fold_left (fun rp c => ins c rp) G B)).
    { induction H as [|f g F G C H IH]; intros A B SA SB HAB; [exact HAB|]. cbn [fold_left]. apply IH; try (apply ins_sorted; assumption).
      apply ins_close; auto; apply Sorted_StronglySorted; auto; apply Rge_trans'. }
    apply B; constructor. }
  clear H. induction A as [|a b A B C H IH]; cbn; [constructor|]. apply Forall2_app; [exact IH|constructor; [exact C|constructor]].
Qed.

(** ** Correctness over the reals *)
Section Search.
  Variables (p : list R) (chain : list (list R)) (L : list R) (lower upper tol : R).
  Hypothesis Nd : NoDup L.
  Hypothesis HL : (length L < length p)%nat.
  Hypothesis Hlu : lower <= upper.
  Hypothesis Htol : 0 < tol.
  Let hp := halving_point lower upper.
  Hypothesis Cnt : forall a b, hp a -> hp b -> count_between chain a b = (upto L b - upto L a)%nat.

  Let zin (r : R * R) : list R := filter (in_range (fst r) (snd r)) L.
  Lemma hp_lower : hp lower.
  Proof. exists 0%nat, 0%nat. cbn. field. Qed.
  Lemma hp_upper : hp upper.
  Proof. exists 1%nat, 0%nat. cbn. field. Qed.
  Lemma hp_middle a b : hp a -> hp b -> hp ((a + b) * / 2).
  Proof.
    intros (i & j & ->) (i' & j' & ->). exists (i * 2 ^ j' + i' * 2 ^ j)%nat, (j + j' + 1)%nat.
    rewrite plus_INR, !mult_INR, !pow_INR. cbn [INR]. rewrite !pow_add. cbn [pow]. replace (1 + 1) with 2 by ring. field.
    split; apply pow_nonzero; lra.
  Qed.
  Lemma count_zin a b : hp a -> hp b -> a <= b -> count_between chain a b = length (zin (a, b)).
  Proof. intros Ha Hb H. rewrite Cnt by auto. rewrite (upto_range L a b H). unfold zin. cbn [fst snd]. lia. Qed.
  Lemma zin_split a m b : a <= m <= b -> Permutation (zin (a, b)) (zin (a, m) ++ zin (m, b)).
  Proof.
    intros H. unfold zin. cbn [fst snd]. clear Nd HL Cnt zin. induction L as [|r M IH]; [reflexivity|]. cbn [filter].
    assert (D : in_range a b r = xorb (in_range a m r) (in_range m b r) /\ (in_range a m r && in_range m b r)%bool = false).
    { unfold in_range. destruct (Rltb a r) eqn:E1, (Rleb r m) eqn:E2, (Rltb m r) eqn:E3, (Rleb r b) eqn:E4; cbn; auto; rcases; lra. }
    destruct D as [D1 D2]. rewrite D1. destruct (in_range a m r), (in_range m b r); cbn in *; try discriminate.
    - constructor. exact IH.
    - rewrite IH. apply Permutation_middle.
    - exact IH.
  Qed.
  Lemma zin_in a b z : In z (zin (a, b)) -> a < z <= b.
  Proof. unfold zin, in_range. rewrite filter_In, andb_true_iff, Rltb_true, Rleb_true. cbn. tauto. Qed.

  Lemma close_in_finds : forall n a b z, hp a -> hp b -> a <= b -> zin (a, b) = [z] ->
    (forall root n', close_in chain tol n a b = Some (root, n') -> close (tol / 2) root z) /\
    (forall d, (b - a) / 2 ^ d <= tol -> (d <= n)%nat -> exists root n', close_in chain tol n a b = Some (root, n') /\ (n <= n' + d)%nat).
  Proof.
    assert (Stop : forall n a b z, a <= b -> zin (a, b) = [z] -> Rltb tol (b - a) = false ->
      close_in chain tol n a b = Some ((a + b) * / 2, n) /\ close (tol / 2) ((a + b) * / 2) z).
    { intros n a b z H Z E. assert (Iz : a < z <= b) by (apply zin_in; rewrite Z; left; reflexivity). apply Rltb_false in E as E'. split.
      - destruct n; cbn [close_in]; rnum; rewrite E; reflexivity.
      - rewrite close_alt. lra. }
    induction n as [|n IH]; intros a b z Ha Hb H Z; destruct (Rltb tol (b - a)) eqn:E.
    - split.
      + intros root n'. cbn [close_in]. rnum. rewrite E. discriminate.
      + intros d Hd Hn. assert (d = 0)%nat by lia. subst d. cbn in Hd. apply Rltb_true in E. exfalso. lra.
    - destruct (Stop 0%nat a b z H Z E) as [S C]. rewrite S. split; [intros root n' G; injection G as <- _; exact C|].
      intros d _ _. eexists _, _. split; [reflexivity|lia].
    - cbn [close_in]. rnum. rewrite E. apply Rltb_true in E. set (m := (a + b) * / 2). assert (Hm : a <= m <= b) by (unfold m; lra).
      assert (Hpm : hp m) by (apply hp_middle; auto). rewrite (count_zin a m) by (auto; lra).
      pose proof (zin_split a m b Hm) as P. rewrite Z in P. pose proof (Permutation_length P) as Len. rewrite app_length in Len. cbn [length] in Len.
      apply Permutation_length_1_inv in P.
      assert (Half : exists a' b', (if Nat.eqb (length (zin (a, m))) 1 then close_in chain tol n a m else close_in chain tol n m b) = close_in chain tol n a' b' /\
        hp a' /\ hp b' /\ a' <= b' /\ zin (a', b') = [z] /\ b' - a' = (b - a) / 2).
      { destruct (Nat.eqb_spec (length (zin (a, m))) 1) as [E1|E1].
        - exists a, m. repeat split; auto; try lra; [|unfold m; field]. destruct (zin (a, m)) as [|y [|]]; cbn in E1; try lia. injection P as <- _. reflexivity.
        - exists m, b. repeat split; auto; try lra; [|unfold m; field]. destruct (zin (a, m)) as [|y [|]]; cbn in E1, Len; try lia. exact P. }
      destruct Half as (a' & b' & -> & Ha' & Hb' & H' & Z' & W). destruct (IH a' b' z Ha' Hb' H' Z') as [I1 I2]. split; [exact I1|].
      intros d Hd Hn. destruct d as [|d]; [cbn in Hd; exfalso; lra|].
      destruct (I2 d) as (root & n' & G & Q); [|lia|].
      + rewrite W. replace ((b - a) / 2 / 2 ^ d) with ((b - a) / 2 ^ S d); [exact Hd|]. cbn [pow]. field. apply pow_nonzero. lra.
      + exists root, n'. split; [exact G|lia].
    - destruct (Stop (S n) a b z H Z E) as [S C]. rewrite S. split; [intros root n' G; injection G as <- _; exact C|].
      intros d _ _. eexists _, _. split; [reflexivity|lia].
  Qed.

  Definition all_zin (pending : list (R * R)) : list R := flat_map zin pending.
  Definition good (r : R * R) : Prop := hp (fst r) /\ hp (snd r) /\ fst r <= snd r /\ zin r <> [].
  Lemma all_zin_length pending : List.Forall good pending -> (length pending <= length (all_zin pending))%nat.
  Proof.
    induction 1 as [|r pending (_ & _ & _ & N) _ IH]; [cbn; lia|]. cbn [all_zin flat_map length]. rewrite app_length. fold (all_zin pending).
    destruct (zin r); [congruence|cbn; lia].
  Qed.
  Lemma zin_le r : (length (zin r) <= length L)%nat.
  Proof. unfold zin. clear. induction L; cbn; [lia|]. destruct (in_range _ _ _); cbn; lia. Qed.
  Definition inv (pending : list (R * R)) (roots : list R) : Prop :=
    List.Forall good pending /\ exists truth, Forall2 (close (tol / 2)) roots truth /\ Permutation (truth ++ all_zin pending) (zin (lower, upper)).
  Lemma inv_size pending roots : inv pending roots -> (length roots + length pending <= length L)%nat.
  Proof.
    intros (G & truth & F & P). pose proof (all_zin_length pending G). apply Permutation_length in P. rewrite app_length in P. pose proof (zin_le (lower, upper)).
    rewrite (Forall2_len _ _ _ F). lia.
  Qed.
  (** adding a piece, if it holds a zero *)
  Lemma add_piece pending a b : hp a -> hp b -> a <= b -> List.Forall good pending -> (length pending < length p)%nat ->
    let pending' := if Nat.ltb 0 (count_between chain a b) then add_range (length p) pending (a, b) else pending in
    List.Forall good pending' /\ all_zin pending' = all_zin pending ++ zin (a, b) /\
    (pending' = pending /\ zin (a, b) = [] \/ pending' = pending ++ [(a, b)] /\ zin (a, b) <> []).
  Proof.
    intros Ha Hb H G Len. cbv zeta. rewrite count_zin by auto. unfold add_range. rewrite (proj2 (Nat.ltb_lt _ _) Len).
    destruct (zin (a, b)) as [|y l] eqn:E; cbn [length Nat.ltb Nat.leb].
    - rewrite app_nil_r. auto.
    - assert (Gd : good (a, b)) by (unfold good; cbn [fst snd]; rewrite E; repeat split; auto; discriminate). split; [apply Forall_app; auto|]. split.
      + unfold all_zin. rewrite flat_map_app. cbn [flat_map]. rewrite E, app_nil_r. reflexivity.
      + right. split; [reflexivity|discriminate].
  Qed.
  Lemma inv_split pending a b roots : inv (pending ++ [(a, b)]) roots -> length (zin (a, b)) <> 1%nat ->
    let m := (a + b) * / 2 in let add := fun pending a b => if Nat.ltb 0 (count_between chain a b) then add_range (length p) pending (a, b) else pending in
    inv (add (add pending a m) m b) roots.
  Proof.
    intros I N m add. pose proof (inv_size _ _ I) as Sz. rewrite app_length in Sz. cbn [length] in Sz.
    destruct I as (G & truth & F & P). apply Forall_app in G. destruct G as [G Gl]. inversion Gl as [|? ? (Ha & Hb & H & Nz) _]; subst. cbn [fst snd] in *.
    assert (Hm : a <= m <= b) by (unfold m; lra). assert (Hpm : hp m) by (apply hp_middle; auto).
    destruct (add_piece pending a m Ha Hpm ltac:(lra) G ltac:(lia)) as (G1 & Z1 & Sh1). fold (add pending a m) in G1, Z1, Sh1.
    assert (L1 : (length (add pending a m) <= S (length pending))%nat) by (destruct Sh1 as [[-> _]|[-> _]]; rewrite ?app_length; cbn; lia).
    destruct (add_piece (add pending a m) m b Hpm Hb ltac:(lra) G1 ltac:(lia)) as (G2 & Z2 & _). fold (add (add pending a m) m b) in G2, Z2.
    split; [exact G2|]. exists truth. split; [exact F|]. rewrite <- P. apply Permutation_app_head. rewrite Z2, Z1. unfold all_zin. rewrite flat_map_app. cbn [flat_map].
    rewrite app_nil_r, <- app_assoc. apply Permutation_app_head. symmetry. apply zin_split. exact Hm.
  Qed.
  Lemma inv_take pending a b z root roots : inv (pending ++ [(a, b)]) roots -> zin (a, b) = [z] -> close (tol / 2) root z ->
    inv pending (roots_push (length p) roots root).
  Proof.
    intros I Z C. pose proof (inv_size _ _ I) as Sz. rewrite app_length in Sz. cbn [length] in Sz. destruct I as (G & truth & F & P).
    apply Forall_app in G. destruct G as [G _]. split; [exact G|]. rewrite push_ok by lia. exists (truth ++ [z]). split; [apply Forall2_app; auto|].
    rewrite <- P. unfold all_zin. rewrite flat_map_app. cbn [flat_map]. rewrite Z, <- app_assoc. apply Permutation_app_head. cbn. apply Permutation_cons_append.
  Qed.
  Lemma good_count a b : good (a, b) -> count_between chain a b = length (zin (a, b)).
  Proof. intros (Ha & Hb & H & _). apply count_zin; auto. Qed.

  Lemma loop_correct budget : forall fuel pending roots remaining r, inv pending roots ->
    roots_loop fuel (length p) chain tol budget pending roots remaining = Some (Ok r) ->
    Forall2 (close (tol / 2)) r (sort_ascending (zin (lower, upper))).
  Proof.
    induction fuel as [|fuel IH]; intros pending roots remaining r I; [discriminate|]. cbn [roots_loop].
    destruct (rev pending) as [|[a b] below] eqn:E.
    - intros H. injection H as <-. apply rev_nil_iff in E. subst pending. destruct I as (_ & truth & F & P). cbn in P. rewrite app_nil_r in P.
      assert (Srt : sort_ascending (zin (lower, upper)) = sort_ascending truth).
      { apply strict_unique.
        - apply Sorted_StronglySorted; [intros u v w; lra|]. apply sorted_strict; [apply sort_sorted|].
          apply (Permutation_NoDup (l := zin (lower, upper))); [symmetry; apply sort_perm|]. apply NoDup_filter. exact Nd.
        - apply Sorted_StronglySorted; [intros u v w; lra|]. apply sorted_strict; [apply sort_sorted|].
          apply (Permutation_NoDup (l := zin (lower, upper))); [rewrite sort_perm, P; reflexivity|]. apply NoDup_filter. exact Nd.
        - intros x. split; apply Permutation_in; rewrite !sort_perm, P; reflexivity. }
      rewrite Srt. apply sort_close. exact F.
    - apply rev_cons_last in E. subst pending. assert (Gd : good (a, b)) by (destruct I as (G & _); apply Forall_app in G; destruct G as [_ G]; inversion G; auto).
      rewrite (good_count a b Gd). destruct (Nat.eqb_spec (length (zin (a, b))) 1) as [E1|E1].
      + destruct (zin (a, b)) as [|z [|]] eqn:Z; cbn in E1; try lia. destruct Gd as (Ha & Hb & H & _).
        destruct (close_in chain tol remaining a b) as [[root n']|] eqn:C; [|discriminate].
        apply IH. apply (inv_take _ a b z); auto. apply (proj1 (close_in_finds remaining a b z Ha Hb H Z) root n' C).
      + destruct remaining as [|n]; [discriminate|]. apply IH. apply (inv_split _ a b roots); auto.
  Qed.

  (** *** Enough budget *)
  Variable D : nat.
  Hypothesis Dtol : (upper - lower) / 2 ^ D <= tol.
  Hypothesis Dgap : forall x y, In x L -> In y L -> lower < x -> x < y -> y <= upper -> (upper - lower) / 2 ^ D <= y - x.
  (** pending ranges together with the number of times the whole range was halved to get them *)
  Fixpoint cost (pending : list (R * R * nat)) : nat :=
    match pending with [] => 0 | (r, j) :: pending => length (zin r) * (D - j) + cost pending end.
  Definition depth_ok (x : R * R * nat) : Prop := snd (fst x) - fst (fst x) = (upper - lower) / 2 ^ (snd x) /\ lower <= fst (fst x) /\ snd (fst x) <= upper /\ (snd x <= D)%nat.
  Lemma cost_app a b : cost (a ++ b) = (cost a + cost b)%nat.
  Proof. induction a as [|[r j] a IH]; cbn; lia. Qed.
  Lemma width_pos j : 0 < 2 ^ j.
  Proof. apply pow_lt. lra. Qed.
  Lemma two_zeros (l : list R) : NoDup l -> (2 <= length l)%nat -> exists x y, In x l /\ In y l /\ x < y.
  Proof.
    intros N H. destruct l as [|x [|y l]]; cbn in H; try lia. inversion N; subst. destruct (Rlt_dec x y); [exists x, y; cbn; auto|].
    exists y, x. cbn. repeat split; auto. destruct (Req_dec x y) as [->|]; [exfalso; apply H2; left; reflexivity|lra].
  Qed.
  Lemma loop_enough budget : forall fuel pend roots remaining, inv (map fst pend) roots -> List.Forall depth_ok pend -> (cost pend <= remaining)%nat ->
    (2 * remaining + length pend < fuel)%nat -> exists r, roots_loop fuel (length p) chain tol budget (map fst pend) roots remaining = Some (Ok r).
  Proof.
    induction fuel as [|fuel IH]; intros pend roots remaining I Dp C F; [lia|]. cbn [roots_loop].
    destruct (rev (map fst pend)) as [|[a b] below] eqn:E; [eauto|]. apply rev_cons_last in E.
    assert (Sp : exists pend' j, pend = pend' ++ [((a, b), j)] /\ map fst pend' = rev below).
    { destruct (@exists_last _ pend) as (pend' & x & ->); [intros ->; destruct (rev below); discriminate|]. rewrite map_app in E. cbn in E. apply app_inj_tail in E. destruct E as [E1 E2].
      destruct x as [r j]. cbn in E2. subst r. exists pend', j. auto. }
    destruct Sp as (pend' & j & -> & Em). rewrite map_app in I. cbn [map fst] in I. apply Forall_app in Dp. destruct Dp as [Dp Dj]. inversion Dj as [|? ? (W & Lo & Up & Hj) _]; subst. cbn [fst snd] in W, Lo, Up, Hj.
    rewrite cost_app in C. cbn [cost] in C. rewrite app_length in F. cbn [length] in F.
    assert (Gd : good (a, b)) by (destruct I as (G & _); apply Forall_app in G; destruct G as [_ G]; inversion G; auto).
    rewrite (good_count a b Gd). rewrite <- Em. destruct (Nat.eqb_spec (length (zin (a, b))) 1) as [E1|E1].
    - destruct (zin (a, b)) as [|z [|]] eqn:Z; cbn [length] in E1; try lia. destruct Gd as (Ha & Hb & H & _). cbn [length] in C.
      destruct (proj2 (close_in_finds remaining a b z Ha Hb H Z) (D - j)%nat) as (root & n' & Ci & Q); [|lia|].
      + rewrite W. replace ((upper - lower) / 2 ^ j / 2 ^ (D - j)) with ((upper - lower) / 2 ^ D); [exact Dtol|].
        replace D with (j + (D - j))%nat at 1 by lia. rewrite pow_add. pose proof (width_pos j). pose proof (width_pos (D - j)). field. lra.
      + rewrite Ci. pose proof (close_in_remaining _ _ _ _ _ _ _ Ci) as Q'. apply IH; auto; try lia.
        apply (inv_take _ a b z); auto. apply (proj1 (close_in_finds remaining a b z Ha Hb H Z) root n' Ci).
    - assert (K2 : (2 <= length (zin (a, b)))%nat) by (destruct Gd as (_ & _ & _ & N); destruct (zin (a, b)) as [|? [|]]; cbn in *; try lia; congruence).
      assert (Hlt : (j < D)%nat).
      { destruct (two_zeros (zin (a, b)) (NoDup_filter _ Nd) K2) as (x & y & Ix & Iy & Hxy). pose proof (zin_in _ _ _ Ix). pose proof (zin_in _ _ _ Iy).
        unfold zin in Ix, Iy. rewrite filter_In in Ix, Iy. pose proof (Dgap x y (proj1 Ix) (proj1 Iy) ltac:(lra) Hxy ltac:(lra)) as G.
        destruct (Nat.eq_dec j D) as [->|]; [exfalso; lra|lia]. }
      assert (C1 : (length (zin (a, b)) * (D - S j) + length (zin (a, b)) = length (zin (a, b)) * (D - j))%nat) by (replace (D - j)%nat with (S (D - S j)) by lia; lia).
      destruct remaining as [|n]; [nia|].
      pose proof (inv_split (map fst pend') a b roots I E1) as I'. cbv zeta in I'. destruct Gd as (Ha & Hb & H & _). cbn [fst snd] in Ha, Hb, H.
      set (m := (a + b) * / 2) in *. assert (Hm : a <= m <= b) by (unfold m; lra). assert (Hpm : hp m) by (apply hp_middle; auto).
      pose proof (inv_size _ _ I) as Sz. rewrite app_length in Sz. cbn [length] in Sz.
      destruct I as (G & _). apply Forall_app in G. destruct G as [G _].
      destruct (add_piece (map fst pend') a m Ha Hpm ltac:(lra) G ltac:(lia)) as (G1 & Z1 & Sh1).
      pose proof (zin_split a m b Hm) as P. apply Permutation_length in P. rewrite app_length in P.
      set (pa := if Nat.ltb 0 (count_between chain a m) then add_range (length p) (map fst pend') (a, m) else map fst pend') in *.
      assert (Wm : forall u v, (u = a /\ v = m \/ u = m /\ v = b) -> depth_ok ((u, v), S j)).
      { intros u v [[-> ->]|[-> ->]]; unfold depth_ok; cbn [fst snd pow]; pose proof (width_pos j);
          (split; [replace ((upper - lower) / (2 * 2 ^ j)) with ((upper - lower) / 2 ^ j / 2) by (field; lra); rewrite <- W; unfold m; field|repeat split; try lra; lia]). }
      assert (X1 : exists q1, pa = map fst q1 /\ List.Forall depth_ok q1 /\ (cost q1 = cost pend' + length (zin (a, m)) * (D - S j))%nat /\ (length q1 <= S (length pend'))%nat).
      { destruct Sh1 as [[-> Ez]|[-> _]].
        - exists pend'. rewrite Ez. cbn. repeat split; auto; lia.
        - exists (pend' ++ [((a, m), S j)]). rewrite map_app, cost_app, app_length. cbn. repeat split; auto; try lia. apply Forall_app. split; [exact Dp|]. constructor; [apply Wm; auto|constructor]. }
      destruct X1 as (q1 & E2 & Dq1 & Cq1 & Lq1). rewrite map_length in Sz.
      destruct (add_piece pa m b Hpm Hb ltac:(lra) G1 ltac:(rewrite E2, map_length; lia)) as (G2 & Z2 & Sh2).
      assert (X2 : exists q2, (if Nat.ltb 0 (count_between chain m b) then add_range (length p) pa (m, b) else pa) = map fst q2 /\ List.Forall depth_ok q2 /\ (cost q2 = cost q1 + length (zin (m, b)) * (D - S j))%nat /\ (length q2 <= S (length q1))%nat).
      { destruct Sh2 as [[-> Ez]|[-> _]].
        - exists q1. rewrite Ez. cbn. repeat split; auto; lia.
        - exists (q1 ++ [((m, b), S j)]). rewrite map_app, cost_app, app_length, E2. cbn. repeat split; auto; try lia. apply Forall_app. split; [exact Dq1|]. constructor; [apply Wm; auto|constructor]. }
      destruct X2 as (q2 & E3 & Dq2 & Cq2 & Lq2). change (inv (if Nat.ltb 0 (count_between chain m b) then add_range (length p) pa (m, b) else pa) roots) in I'. rewrite E3 in I'.
      change (exists r, roots_loop fuel (length p) chain tol budget (if Nat.ltb 0 (count_between chain m b) then add_range (length p) pa (m, b) else pa) roots n = Some (Ok r)).
      rewrite E3. apply IH; auto; try lia.
  Qed.
End Search.

(** The composite rules at the extended reals on finite samples, and the changes of variable. *)
From Coq Require Import Reals ZArith List Arith Bool Lia Lra Psatz.
From Coquelicot Require Import Coquelicot.
From Verif Require Import Base.Scalar Base.RNum Base.XNum Base.Lists Base.Series Model.Errors Model.Summation Model.GaussTables Model.Integration Spec.Summation Spec.Integration Proofs.Integration.
Import ListNotations.
Local Open Scope R_scope.

Definition up (p : PairwiseSum (T := R)) : PairwiseSum (T := XR) := mkPairwise (map Fin (tree p)) (occupied p) (Fin (block_sum p)) (block_count p).
Lemma carry_up steps : forall level tr occ (value : R), carry steps level (map Fin tr) occ (Fin value) =
  let '(l, o, v) := carry steps level tr occ value in (l, o, Fin v).
Proof.
  induction steps as [|steps IH]; intros level tr occ value; [reflexivity|]. cbn [carry]. destruct (Z.testbit occ (Z.of_nat level)); [|reflexivity].
  change (@zero XR Xnum) with (Fin 0). rewrite map_nth. change (add (Fin (nth level tr 0)) (Fin value)) with (Fin (nth level tr 0 + value)). rewrite IH. reflexivity.
Qed.
Lemma set_nth_map {A B} (f : A -> B) l i v : set_nth (map f l) i (f v) = map f (set_nth l i v).
Proof. revert i. induction l as [|x l IH]; intros [|i]; cbn; auto. rewrite IH. reflexivity. Qed.
Lemma push_up a (v : R) : push (up a) (Fin v) = up (push a v).
Proof.
  unfold push. cbn [tree occupied up block_sum block_count]. rewrite carry_up. destruct (carry LEVELS 0 (tree a) (occupied a) v) as [[l o] w]. unfold up. cbn [tree occupied block_sum block_count]. rewrite set_nth_map. reflexivity.
Qed.
Lemma pairwise_add_up a (v : R) : pairwise_add (up a) (Fin v) = up (pairwise_add a v).
Proof.
  unfold pairwise_add. cbn [tree occupied up block_sum block_count]. destruct (Nat.eqb (S (block_count a)) BLOCK); [|reflexivity].
  change (mkPairwise (map Fin (tree a)) (occupied a) (add (Fin (block_sum a)) (Fin v)) (S (block_count a))) with (up (mkPairwise (tree a) (occupied a) (block_sum a + v) (S (block_count a)))).
  change (add (Fin (block_sum a)) (Fin v)) with (Fin (block_sum a + v)). rewrite push_up. reflexivity.
Qed.
Lemma pairwise_total_up a : pairwise_total (up a) = Fin (pairwise_total a).
Proof.
  unfold pairwise_total. cbn [tree occupied up block_sum block_count]. generalize (seq 0 (bit_length (occupied a))). intros l. generalize (block_sum a). induction l as [|x l IH]; intros b; [reflexivity|]. cbn [fold_left].
  destruct (Z.testbit (occupied a) (Z.of_nat x)); [|apply IH]. change (@zero XR Xnum) with (Fin 0). rewrite map_nth. apply (IH (b + nth x (tree a) 0)).
Qed.
Lemma total_up s (l : list R) : total s (map Fin l) = Fin (total s l).
Proof.
  destruct s; cbn [total].
  - unfold pairwise_of, pairwise_run. assert (E : forall l a, fold_left pairwise_add (map Fin l) (up a) = up (fold_left pairwise_add l a)).
    { clear l. induction l as [|x l IH]; intros a; [reflexivity|]. cbn [map fold_left]. rewrite pairwise_add_up. apply IH. }
    change (@pairwise_new XR Xnum) with (up pairwise_new). rewrite E. apply pairwise_total_up.
  - unfold kahan_of. assert (E : forall l a b, fold_left kahan_add (map Fin l) (mkKahan (Fin a) (Fin b)) = let k := fold_left kahan_add l (mkKahan a b) in mkKahan (Fin (ksum k)) (Fin (compensation k))).
    { clear l. induction l as [|x l IH]; intros a b; [reflexivity|]. cbn [map fold_left]. apply IH. }
    change (@kahan_new XR Xnum) with (mkKahan (Fin 0) (Fin 0)). rewrite E. reflexivity.
Qed.
Section Up.
  Variables (g : XR -> sampled XR) (h : R -> R) (a b : R).
  Hypothesis G : forall x, a <= x <= b -> g (Fin x) = Ok (Fin (h x)).
  Lemma walk_up next next' d : 0 <= d -> (forall i, next i = Fin (next' i)) -> forall count iter point multiplier, a <= point -> point + INR count * d <= b ->
    walk count iter (Fin point) (Fin d) (Fin multiplier) next g = match walk count iter point d multiplier next' (fun x => Ok (h x)) with Ok l => Ok (map Fin l) | Err e => Err e | Panic => Panic end.
  Proof.
    intros Hd N. induction count as [|count IH]; intros iter point multiplier H1 H2; [reflexivity|]. cbn [walk]. rewrite S_INR in H2. pose proof (Rmult_le_pos _ _ (pos_INR count) Hd). change (add (Fin point) (Fin d)) with (Fin (point + d)). rewrite G by lra. rewrite N, IH by lra. change (add point d) with (point + d).
    destruct (walk count (S iter) (point + d) d (next' iter) next' (fun x => Ok (h x))); reflexivity.
  Qed.
  Lemma gather_up n d ends ends' multiplier next next' : a <= b -> 0 <= d -> a + INR (n - 1) * d <= b -> (forall i, next i = Fin (next' i)) -> (forall v, ends (Fin v) = Fin (ends' v)) ->
    gather n (Fin a) (Fin b) (Fin d) ends (Fin multiplier) next g = match gather n a b d ends' multiplier next' (fun x => Ok (h x)) with Ok l => Ok (map Fin l) | Err e => Err e | Panic => Panic end.
  Proof.
    intros Hab Hd Hn N E. unfold gather. rewrite !G by lra. rewrite (walk_up next next') by (auto; lra). destruct (walk (n - 1) 0 a d multiplier next' (fun x => Ok (h x))); [|reflexivity..]. rewrite !E. cbn [map]. rewrite map_app. reflexivity.
  Qed.
  Lemma rule_up c : a <= b -> (0 < total_iterations c)%nat -> integrate_rule c (Fin a) (Fin b) g = match integrate_rule c a b (fun x => Ok (h x)) with Ok v => Ok (Fin v) | Err e => Err e | Panic => Panic end.
  Proof.
    intros Hab Hn. assert (In : 0 < INR (total_iterations c)) by (apply lt_0_INR; auto).
    assert (Sx : step_size (total_iterations c) (Fin a) (Fin b) = Fin (step_size (total_iterations c) a b)). { unfold step_size. cbn [sub of_Z div Xnum Rnum xadd xneg]. rewrite xdiv_fin by (rewrite <- INR_IZR_INZ; lra). reflexivity. }
    assert (Sd : step_size (total_iterations c) a b = (b - a) / INR (total_iterations c)) by (unfold step_size; rnum; rewrite <- INR_IZR_INZ; reflexivity).
    assert (D0 : 0 <= step_size (total_iterations c) a b). { rewrite Sd. apply Rmult_le_pos; [lra|]. apply Rlt_le, Rinv_0_lt_compat, In. }
    assert (Dn : a + INR (total_iterations c - 1) * step_size (total_iterations c) a b <= b). { rewrite minus_INR by lia. cbn [INR]. assert (INR (total_iterations c) * step_size (total_iterations c) a b = b - a) by (rewrite Sd; field; lra). lra. }
    assert (N1 : forall i, booles_next i = Fin (booles_next i)) by (intros i; unfold booles_next; destruct (negb _); [reflexivity|destruct (Nat.eqb _ _); reflexivity]).
    assert (N2 : forall i, simpsons_next i = Fin (simpsons_next i)) by (intros i; unfold simpsons_next; destruct (Nat.eqb _ _); reflexivity).
    unfold integrate_rule, booles, simpsons, trapezoidal. destruct (integration_method c); rewrite Sx.
    - change (@of_Z XR Xnum 32) with (Fin (of_Z 32)). rewrite (gather_up _ _ _ (fun v => mul (of_Z 7) v) _ _ booles_next) by auto.
      destruct (gather _ _ _ _ _ _ _ _); cbn [finish]; [|reflexivity..]. rewrite total_up. do 1 f_equal. cbn [mul two div of_Z Xnum Rnum xmul]. rewrite xdiv_fin by lra. reflexivity.
    - change (@of_Z XR Xnum 3) with (Fin (of_Z 3)). rewrite (gather_up _ _ _ (fun v => v) _ _ simpsons_next) by auto.
      destruct (gather _ _ _ _ _ _ _ _); cbn [finish]; [|reflexivity..]. rewrite total_up. do 1 f_equal. cbn [mul two div of_Z Xnum Rnum xmul]. rewrite xdiv_fin by lra. reflexivity.
    - change (@two XR Xnum) with (Fin two). rewrite (gather_up _ _ _ (fun v => v) _ _ (fun _ => two)) by auto.
      destruct (gather _ _ _ _ _ _ _ _); cbn [finish]; [|reflexivity..]. rewrite total_up. reflexivity.
  Qed.
End Up.

(** The jacobian and hessian loops, over any scalar and any derivator. *)
From Coq Require Import ZArith List Bool Arith Lia.
From Verif Require Import Base.Scalar Base.Lists Model.Errors Model.Matrix Model.Derivative Spec.Matrix Proofs.Matrix.
Import ListNotations.

Section Loops.
  Context {T : Type} {NT : Num T}.

  (** ** jacobian *)
  Lemma write_column_spec rows cols (m : mat T) n column : shape rows cols m -> length column = rows -> n < cols ->
    shape rows cols (write_column m n column) /\
    forall r c, r < rows -> c < cols -> mget (write_column m n column) r c = if Nat.eqb c n then nth r column zero else mget m r c.
  Proof.
    intros S L N. unfold write_column. rewrite L.
    pose proof (for_range (fun k a => shape rows cols a /\
      forall r c, r < rows -> c < cols -> mget a r c = if (Nat.eqb c n && Nat.ltb r k)%bool then nth r column zero else mget m r c)
      (fun result row => mset result row n (nth row column zero)) rows 0 m) as P.
    cbn [Nat.add] in P. destruct P as [A B].
    - split; auto. intros r c R C. rewrite Bool.andb_false_r. reflexivity.
    - intros k a K [A B]. split; [apply shape_mset; auto|]. intros r c R C. rewrite (mget_mset rows cols) by (auto; lia).
      rewrite B by auto. destruct (Nat.eqb_spec c n) as [->|NC]; cbn [andb].
      + destruct (Nat.eqb_spec r k) as [->|NR]; cbn [andb].
        * destruct (Nat.ltb_spec k (Datatypes.S k)); [reflexivity|lia].
        * destruct (Nat.ltb_spec r k), (Nat.ltb_spec r (Datatypes.S k)); auto; lia.
      + rewrite Bool.andb_false_r. reflexivity.
    - split; auto. intros r c R C. rewrite B by auto. destruct (Nat.ltb_spec r rows); [|lia]. rewrite Bool.andb_true_r. reflexivity.
  Qed.
  Lemma jacobian_ok (d : Derivator T) func rows point (cols : nat -> list T) : 0 < rows ->
    (forall n, n < length point -> d_column d func n point = Ok (cols n) /\ length (cols n) = rows) ->
    jacobian d func rows point = Ok (mat_fn rows (length point) (fun r c => nth r (cols c) zero)).
  Proof.
    intros R H. unfold jacobian. destruct (Nat.eqb_spec rows 0); [lia|].
    match goal with |- fold_left ?f _ ?a0 = _ =>
      pose proof (for_range (fun k a => exists m, a = Ok m /\ shape rows (length point) m /\
        forall r c, r < rows -> c < length point -> mget m r c = if Nat.ltb c k then nth r (cols c) zero else zero) f (length point) 0 a0) as P end.
    cbn [Nat.add] in P. destruct P as (m & -> & S & G).
    - eexists. split; [reflexivity|]. split; [apply shape_mat_fn|]. intros r c A B. unfold mat_zeros. rewrite mget_mat_fn by auto. reflexivity.
    - intros k a K (m & -> & S & G). destruct (H k) as [E L]; [lia|]. rewrite E. eexists. split; [reflexivity|].
      destruct (write_column_spec rows (length point) m k (cols k) S L ltac:(lia)) as [A B]. split; auto.
      intros r c X Y. rewrite B, G by auto. destruct (Nat.eqb_spec c k) as [->|N].
      + destruct (Nat.ltb_spec k (Datatypes.S k)); [reflexivity|lia].
      + destruct (Nat.ltb_spec c k), (Nat.ltb_spec c (Datatypes.S k)); auto; lia.
    - apply f_equal. apply (mat_ext rows (length point)); auto. apply shape_mat_fn. intros i j I J. rewrite G, mget_mat_fn by auto.
      destruct (Nat.ltb_spec j (length point)); [reflexivity|lia].
  Qed.
  Lemma push_column_spec (m : mat T) column : length m = length column ->
    length (push_column m column) = length m /\ forall r, r < length m -> nth r (push_column m column) [] = nth r m [] ++ [nth r column zero].
  Proof.
    intros L. unfold push_column. rewrite <- L.
    pose proof (for_range (fun k a => length a = length m /\
      forall r, r < length m -> nth r a [] = if Nat.ltb r k then nth r m [] ++ [nth r column zero] else nth r m [])
      (fun result row => set_nth result row (nth row result [] ++ [nth row column zero])) (length m) 0 m) as P.
    cbn [Nat.add] in P. destruct P as [A B].
    - split; auto.
    - intros k a K [A B]. split; [rewrite set_nth_length; auto|]. intros r R. destruct (Nat.eq_dec k r) as [->|N].
      + rewrite nth_set_nth_eq by lia. rewrite B by lia. destruct (Nat.ltb_spec r r), (Nat.ltb_spec r (Datatypes.S r)); auto; lia.
      + rewrite nth_set_nth_neq by auto. rewrite B by auto. destruct (Nat.ltb_spec r k), (Nat.ltb_spec r (Datatypes.S k)); auto; lia.
    - split; auto. intros r R. rewrite B by auto. destruct (Nat.ltb_spec r (length m)); auto; lia.
  Qed.
  Lemma jacobian_on_heap_ok (d : Derivator T) func rows point (cols : nat -> list T) : 0 < rows ->
    (forall n, n < length point -> d_column d func n point = Ok (cols n) /\ length (cols n) = rows) ->
    jacobian_on_heap d func rows point = Ok (mat_fn rows (length point) (fun r c => nth r (cols c) zero)).
  Proof.
    intros R H. unfold jacobian_on_heap. destruct (Nat.eqb_spec rows 0); [lia|].
    match goal with |- fold_left ?f _ ?a0 = _ =>
      pose proof (for_range (fun k a => exists m, a = Ok m /\ length m = rows /\
        forall r, r < rows -> nth r m [] = from_fn k (fun c => nth r (cols c) zero)) f (length point) 0 a0) as P end.
    cbn [Nat.add] in P. destruct P as (m & -> & S & G).
    - eexists. split; [reflexivity|]. split; [apply repeat_length|]. intros r A. apply nth_repeat.
    - intros k a K (m & -> & S & G). destruct (H k) as [E L]; [lia|]. rewrite E. eexists. split; [reflexivity|].
      destruct (push_column_spec m (cols k) ltac:(congruence)) as [A B]. split; [congruence|].
      intros r X. rewrite B, G by lia. unfold from_fn. rewrite seq_S, map_app. reflexivity.
    - apply f_equal. apply nth_ext with (d := []) (d' := []); [unfold mat_fn; rewrite from_fn_length; auto|]. intros r X.
      unfold mat_fn. rewrite nth_from_fn by lia. apply G. lia.
  Qed.
  (** the first column refused is the outcome *)
  Lemma jacobian_err (d : Derivator T) func rows point n e : 0 < rows -> n < length point ->
    (forall m, m < n -> exists column, d_column d func m point = Ok column) -> d_column d func n point = Err e ->
    jacobian d func rows point = Err e /\ jacobian_on_heap d func rows point = Err e.
  Proof.
    intros R N H E.
    assert (G : forall (step : mat T -> nat -> list T -> mat T) (start : mat T),
      fold_left (fun acc k => match acc with
        | Ok result => match d_column d func k point with Ok column => Ok (step result k column) | Err e => Err e | Panic => Panic end
        | other => other end) (seq 0 (length point)) (Ok start) = Err e).
    { intros step start. replace (length point) with (n + Datatypes.S (length point - n - 1)) by lia. rewrite seq_app, fold_left_app.
      match goal with |- fold_left ?f ?l (fold_left _ ?l' ?a) = _ =>
        assert (O : exists m, fold_left f l' a = Ok m) end.
      { match goal with |- exists m, fold_left ?f ?l' ?a0 = Ok m => apply (for_range (fun k a => exists m, a = Ok m) f n 0 a0) end.
        - eexists; reflexivity.
        - intros i x I (m & ->). destruct (H i) as [column ->]; [lia|]. eexists; reflexivity. }
      destruct O as [m ->]. cbn [seq fold_left Nat.add]. rewrite E.
      assert (F : forall (l : list nat) f, (forall k, f (Err e) k = (Err e : Res (mat T) DiffError)) -> fold_left f l (Err e : Res (mat T) DiffError) = Err e).
      { induction l as [|k l IH]; intros f F; cbn; auto. rewrite F. auto. }
      apply F. reflexivity. }
    unfold jacobian, jacobian_on_heap. destruct (Nat.eqb_spec rows 0); [lia|]. split.
    - apply (G (fun result k column => write_column result k column)).
    - apply (G (fun result k column => push_column result column)).
  Qed.

  (** ** hessian *)
  Definition visited (r c i j : nat) : bool := (Nat.ltb i r || (Nat.eqb i r && Nat.ltb j c))%bool.
  Definition blocked (D : nat -> nat -> Res T DiffError) (n : nat) (out : Res T DiffError) : Prop :=
    exists i j, i < n /\ j < n /\ D i j = out /\ (i <= j \/ exists v, D j i = Ok v /\ is_nan v = true).
  Definition hess_inv (D : nat -> nat -> Res T DiffError) (n r c : nat) (acc : Res (mat T) DiffError) : Prop :=
    match acc with
    | Ok H => shape n n H /\ (forall i j, i < n -> j < n -> mget H i j = mget H j i) /\
        forall i j, i <= j -> j < n ->
          if visited r c i j then exists v, D i j = Ok v /\ (is_nan v = false -> mget H i j = v) else mget H i j = nan
    | Err e => blocked D n (Err e)
    | Panic => blocked D n Panic
    end.
  Lemma fold_list_prod {A B C} (f : C -> A * B -> C) (l : list A) (l' : list B) : forall a,
    fold_left f (list_prod l l') a = fold_left (fun a x => fold_left (fun a y => f a (x, y)) l' a) l a.
  Proof.
    induction l as [|x l IH]; intros a; cbn; auto. rewrite fold_left_app, IH. f_equal.
    clear. revert a. induction l' as [|y l' IH]; intros a; cbn; auto.
  Qed.
  Lemma hess_step (d : Derivator T) func point r c acc : is_nan (nan : T) = true ->
    let n := length point in let D i j := second_partial_derivative d func i j point in
    r < n -> c < n -> hess_inv D n r c acc -> hess_inv D n r (Datatypes.S c) (hessian_cell d func point acc (r, c)).
  Proof.
    intros NN n D R C I. destruct acc as [H| |]; [|exact I|exact I]. destruct I as (S & Y & E). cbn [hessian_cell].
    destruct (is_nan (mget H r c)) eqn:V.
    - fold (D r c).
      assert (OK : r <= c \/ exists v, D c r = Ok v /\ is_nan v = true).
      { destruct (Nat.le_gt_cases r c) as [L|L]; [auto|]. right. specialize (E c r ltac:(lia) R).
        assert (Vi : visited r c c r = true) by (unfold visited; destruct (Nat.ltb_spec c r); auto; lia). rewrite Vi in E.
        destruct E as (v & Dv & Ev). exists v. split; auto. destruct (is_nan v) eqn:W; auto. rewrite Y in V by auto. rewrite Ev in V by auto. congruence. }
      destruct (D r c) as [v|e|] eqn:Dv; [|exists r, c; repeat split; auto|exists r, c; repeat split; auto].
      set (H' := mset (mset H r c v) c r v).
      assert (G : forall i j, i < n -> j < n -> mget H' i j = if ((Nat.eqb i r && Nat.eqb j c) || (Nat.eqb i c && Nat.eqb j r))%bool then v else mget H i j).
      { intros i j Ii J. unfold H'. rewrite (mget_mset n n) by (auto using shape_mset). rewrite (mget_mset n n) by auto.
        destruct (Nat.eqb_spec i c), (Nat.eqb_spec j r), (Nat.eqb_spec i r), (Nat.eqb_spec j c); cbn; auto. }
      split; [unfold H'; apply shape_mset; apply shape_mset; auto|]. split.
      + intros i j Ii J. rewrite !G by auto. rewrite (Y i j) by auto.
        destruct (Nat.eqb_spec i c), (Nat.eqb_spec j r), (Nat.eqb_spec i r), (Nat.eqb_spec j c); cbn; auto.
      + intros i j L J. rewrite G by lia. specialize (E i j L J).
        destruct (Nat.eqb_spec i r) as [->|NR]; [destruct (Nat.eqb_spec j c) as [->|NC]|]; cbn [andb orb].
        * assert (Vi : visited r (Datatypes.S c) r c = true) by (unfold visited; rewrite Nat.eqb_refl; destruct (Nat.ltb_spec c (Datatypes.S c)); [rewrite Bool.orb_true_r; auto|lia]).
          rewrite Vi. exists v. auto.
        * assert (X : visited r (Datatypes.S c) r j = visited r c r j).
          { unfold visited. rewrite Nat.eqb_refl. destruct (Nat.ltb_spec j (Datatypes.S c)), (Nat.ltb_spec j c); auto; lia. }
          rewrite X. replace (Nat.eqb r c && Nat.eqb j r)%bool with false; [exact E|].
          symmetry. apply Bool.andb_false_iff. destruct (Nat.eqb_spec r c), (Nat.eqb_spec j r); auto. lia.
        * assert (X : visited r (Datatypes.S c) i j = visited r c i j).
          { unfold visited. destruct (Nat.eqb_spec i r); [lia|]. reflexivity. }
          rewrite X. destruct (Nat.eqb_spec i c) as [->|NI]; [destruct (Nat.eqb_spec j r) as [->|NJ]|]; cbn [andb]; try exact E.
          destruct OK as [OK|(w & Dw & Nw)]; [lia|].
          assert (Vi : visited r c c r = true) by (unfold visited; destruct (Nat.ltb_spec c r); auto; lia). rewrite Vi. exists w. split; auto. congruence.
    - split; auto. split; auto. intros i j L J. specialize (E i j L J).
      destruct (visited r c i j) eqn:Vi.
      + replace (visited r (Datatypes.S c) i j) with true; [exact E|]. symmetry. revert Vi. unfold visited.
        destruct (Nat.ltb_spec i r), (Nat.eqb_spec i r), (Nat.ltb_spec j c), (Nat.ltb_spec j (Datatypes.S c)); cbn; auto; lia.
      + destruct (visited r (Datatypes.S c) i j) eqn:Vj; [|exact E]. exfalso.
        assert (i = r /\ j = c) as [-> ->].
        { revert Vi Vj. unfold visited. destruct (Nat.ltb_spec i r), (Nat.eqb_spec i r), (Nat.ltb_spec j c), (Nat.ltb_spec j (Datatypes.S c)); cbn; intros; try discriminate; lia. }
        rewrite E in V. congruence.
  Qed.
  Lemma hess_inv_row D n r acc : hess_inv D n r n acc -> hess_inv D n (Datatypes.S r) 0 acc.
  Proof.
    destruct acc as [H| |]; auto. intros (S & Y & E). split; auto. split; auto. intros i j L J. specialize (E i j L J).
    replace (visited (Datatypes.S r) 0 i j) with (visited r n i j); [exact E|]. unfold visited.
    destruct (Nat.ltb_spec i r), (Nat.ltb_spec i (Datatypes.S r)), (Nat.eqb_spec i r), (Nat.eqb_spec i (Datatypes.S r)), (Nat.ltb_spec j n), (Nat.ltb_spec j 0); cbn; auto; lia.
  Qed.
  Lemma hessian_inv (d : Derivator T) func point : is_nan (nan : T) = true ->
    hess_inv (fun i j => second_partial_derivative d func i j point) (length point) (length point) 0 (hessian d func point).
  Proof.
    intros NN. unfold hessian. rewrite fold_list_prod.
    apply (for_range (fun r a => hess_inv (fun i j => second_partial_derivative d func i j point) (length point) r 0 a) _ (length point) 0).
    - split; [apply shape_mat_fn|]. split.
      + intros i j I J. rewrite !mget_mat_fn by auto. reflexivity.
      + intros i j L J. replace (visited 0 0 i j) with false; [rewrite mget_mat_fn by lia; reflexivity|]. unfold visited. destruct (Nat.eqb_spec i 0); auto.
    - intros r a R I. apply hess_inv_row.
      apply (for_range (fun c a => hess_inv (fun i j => second_partial_derivative d func i j point) (length point) r c a) _ (length point) 0); auto.
      intros c x C J. apply hess_step; auto; lia.
  Qed.
End Loops.

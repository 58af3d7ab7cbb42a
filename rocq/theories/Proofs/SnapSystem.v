(** The linear system of the minimum snap planner: what its rows add up to. *)
From Coq Require Import ZArith List Bool Arith Reals Lra Lia.
From Verif Require Import Base.Scalar Base.RNum Base.Lists Base.Series Model.Errors Model.Vector Model.Matrix Model.Lu Model.Polynomial Model.Piecewise Model.MinimumSnap
  Spec.Matrix Proofs.Matrix Proofs.SnapPiece Props.Lu.
Import ListNotations.
Local Open Scope R_scope.

Section Assembly.
  Variables (max_free dimension : nat) (kind : nat -> nat -> @endpoint_derivative R).
  Definition shaped (st : mat R * mat R) : Prop := shape max_free max_free (fst st) /\ shape max_free dimension (snd st).

  (** A number read off the system that every column shifts by a known amount *)
  Variables (read : mat R * mat R -> R) (gain : nat -> R -> @endpoint_derivative R -> R).
  Definition within (k : @endpoint_derivative R) : Prop := match k with Free j => (j < max_free)%nat | Fixed _ => True end.
  Hypothesis Hread : forall free_row entry column st, shaped st -> (free_row < max_free)%nat -> within column ->
    shaped (add_column dimension free_row entry column st) /\ read (add_column dimension free_row entry column st) = read st + gain free_row entry column.

Lemma columns_gain (local : nat -> @endpoint_derivative R) free_row (entry : nat -> R) : (free_row < max_free)%nat -> (forall i, (i < 8)%nat -> within (local i)) ->
    forall n st, (n <= 8)%nat -> shaped st ->
    shaped (fold_left (fun st c => add_column dimension free_row (entry c) (local c) st) (seq 0 n) st) /\
    read (fold_left (fun st c => add_column dimension free_row (entry c) (local c) st) (seq 0 n) st) = read st + bsum n (fun c => gain free_row (entry c) (local c)).
Proof.
    intros Hf Hl. induction n as [|n IH]; intros st Hn Hs; [split; [exact Hs|cbn; ring]|].
    rewrite seq_S, fold_left_app. destruct (IH st ltac:(lia) Hs) as [S1 S2]. cbn [fold_left plus bsum].
    destruct (Hread free_row (entry n) (local n) _ S1 Hf (Hl n ltac:(lia))) as [T1 T2]. split; [exact T1|]. rewrite T2, S2. ring.
Qed.
  Definition local_kind (segment i : nat) : @endpoint_derivative R := kind (segment + Nat.div i 4)%nat (Nat.modulo i 4).
  Definition row_gain (segment : nat) (terms : mat R) (i : nat) : R :=
    match local_kind segment i with Fixed _ => 0 | Free free_row => bsum 8 (fun c => gain free_row (mget terms i c) (local_kind segment c)) end.
Lemma segment_gain segment terms : (forall i, (i < 8)%nat -> within (local_kind segment i)) -> forall st, shaped st ->
    shaped (add_segment dimension kind segment terms st) /\ read (add_segment dimension kind segment terms st) = read st + bsum 8 (row_gain segment terms).
Proof.
    intros Hl st Hs. unfold add_segment. assert (G : forall n, (n <= 8)%nat ->
      let st' := fold_left (fun st local_row => match local_kind segment local_row with Fixed _ => st | Free free_row => fold_left (fun st c => add_column dimension free_row (mget terms local_row c) (local_kind segment c) st) (seq 0 8) st end) (seq 0 n) st in
      shaped st' /\ read st' = read st + bsum n (row_gain segment terms)).
    { induction n as [|n IH]; intros Hn st'; [split; [exact Hs|cbn; ring]|]. unfold st'. rewrite (seq_S n), fold_left_app. destruct (IH ltac:(lia)) as [S1 S2]. cbn [fold_left plus bsum].
      unfold row_gain at 2. pose proof (Hl n ltac:(lia)) as Hk. destruct (local_kind segment n) as [v|fr] eqn:K; [split; [exact S1|rewrite S2; ring]|].
      destruct (columns_gain (local_kind segment) fr (fun c => mget terms n c) Hk Hl 8 _ (le_n 8) S1) as [T1 T2]. split; [exact T1|]. rewrite T2, S2. ring. }
    exact (G 8%nat (le_n 8)).
Qed.
Lemma assemble_gain durations : forall segment st st', (forall s i, (s < List.length durations)%nat -> (i < 8)%nat -> within (local_kind (segment + s) i)) -> shaped st ->
    assemble dimension kind segment durations st = Ok st' ->
    shaped st' /\ exists inverse : nat -> mat R, (forall s, (s < List.length durations)%nat -> endpoint_mapping_inverse (nth s durations 0) = Ok (inverse s)) /\
    read st' = read st + bsum (List.length durations) (fun s => bsum 8 (row_gain (segment + s) (in_endpoint_terms (inverse s) (nth s durations 0)))).
Proof.
    induction durations as [|h rest IH]; intros segment st st' Hl Hs E.
    - injection E as <-. split; [exact Hs|]. exists (fun _ => []). split; [cbn; lia|cbn; ring].
    - cbn [assemble] in E. destruct (endpoint_mapping_inverse h) as [inv| |] eqn:I; try discriminate.
      destruct (segment_gain segment (in_endpoint_terms inv h) (fun i Hi => eq_rect _ (fun s => within (local_kind s i)) (Hl 0%nat i ltac:(cbn; lia) Hi) _ (Nat.add_0_r segment)) st Hs) as [S1 S2].
      destruct (IH (S segment) _ st' ltac:(intros s i Hs' Hi; replace (S segment + s)%nat with (segment + S s)%nat by lia; apply Hl; cbn; lia) S1 E) as (T1 & inverse & T2 & T3).
      split; [exact T1|]. exists (fun s => match s with O => inv | S s => inverse s end). split.
      + intros [|s] Hs'; [exact I|]. apply T2. cbn in Hs'. lia.
      + cbn [List.length]. rewrite bsum_first, T3, S2. rewrite Nat.add_0_r. cbn [nth]. rewrite (bsum_ext _ (fun i => bsum 8 (row_gain (segment + S i) (in_endpoint_terms (inverse i) (nth i rest 0)))) (fun s => bsum 8 (row_gain (S segment + s) (in_endpoint_terms (inverse s) (nth s rest 0))))) by (intros s _; rewrite Nat.add_succ_r; reflexivity). ring.
Qed.
End Assembly.

(** The two numbers read off: an entry, and how far a solution is from meeting a row *)
Section Reads.
  Variables (max_free dimension : nat).
  Definition entry_gain (i j free_row : nat) (entry : R) (column : @endpoint_derivative R) : R :=
    if Nat.eqb i free_row then match column with Free c => if Nat.eqb j c then entry else 0 | Fixed _ => 0 end else 0.
Lemma known_column free_row entry (value : list R) known : shape max_free dimension known -> (free_row < max_free)%nat -> forall n, (n <= dimension)%nat ->
    let known' := fold_left (fun known_side axis => mset known_side free_row axis (mget known_side free_row axis - entry * vget value axis)) (seq 0 n) known in
    shape max_free dimension known' /\ forall i a, (i < max_free)%nat -> (a < dimension)%nat -> mget known' i a = mget known i a - (if Nat.eqb i free_row && Nat.ltb a n then entry * vget value a else 0).
Proof.
    intros Hk Hf. induction n as [|n IH]; intros Hn known'.
    - split; [exact Hk|]. intros i a _ _. cbn. rewrite andb_false_r. rnum. symmetry. apply Rminus_0_r.
    - unfold known'. rewrite seq_S, fold_left_app. cbn [fold_left plus]. destruct (IH ltac:(lia)) as [S1 S2]. split; [apply shape_mset, S1|].
      intros i a Hi Ha. rewrite (mget_mset max_free dimension) by (auto; lia). rewrite !S2 by (auto; lia).
      destruct (Nat.eqb_spec i free_row) as [->|Ni]; cbn [andb]; [|reflexivity]. rewrite Nat.eqb_refl, Nat.ltb_irrefl. cbn [andb].
      destruct (Nat.eqb_spec a n) as [->|Na]; [rewrite (proj2 (Nat.ltb_lt n (S n))) by lia; rnum; ring|].
      destruct (Nat.ltb_spec a n), (Nat.ltb_spec a (S n)); try lia; reflexivity.
Qed.
Lemma column_shape free_row entry column st : shaped max_free dimension st -> (free_row < max_free)%nat -> within max_free column -> shaped max_free dimension (add_column dimension free_row entry column st).
Proof.
    intros [H1 H2] Hf Hc. destruct st as [red known]. destruct column as [v|c]; cbn [add_column]; split; cbn [fst snd] in *; auto.
    - apply (known_column free_row entry v known H2 Hf dimension (le_n _)).
    - apply shape_mset, H1.
Qed.
Lemma entry_read i j : (i < max_free)%nat -> (j < max_free)%nat -> forall free_row entry column st, shaped max_free dimension st -> (free_row < max_free)%nat -> within max_free column ->
    shaped max_free dimension (add_column dimension free_row entry column st) /\
    mget (fst (add_column dimension free_row entry column st)) i j = mget (fst st) i j + entry_gain i j free_row entry column.
Proof.
    intros Hi Hj fr e col st Hs Hf Hc. split; [apply column_shape; auto|]. destruct Hs as [H1 H2]. destruct st as [red known]. unfold entry_gain.
    destruct col as [v|c]; cbn [add_column fst] in *; [destruct (Nat.eqb i fr); ring|].
    rewrite (mget_mset max_free max_free) by auto. destruct (Nat.eqb_spec i fr) as [->|]; cbn [andb]; [|ring]. destruct (Nat.eqb_spec j c) as [->|]; rnum; ring.
Qed.
  Variables (X : nat -> nat -> R).
  Definition chosen (column : @endpoint_derivative R) (a : nat) : R := match column with Free c => X c a | Fixed v => vget v a end.
  Definition excess (i a : nat) (st : mat R * mat R) : R := bsum max_free (fun j => mget (fst st) i j * X j a) - mget (snd st) i a.
  Definition excess_gain (i a free_row : nat) (entry : R) (column : @endpoint_derivative R) : R := if Nat.eqb i free_row then entry * chosen column a else 0.
Lemma excess_read i a : (i < max_free)%nat -> (a < dimension)%nat -> forall free_row entry column st, shaped max_free dimension st -> (free_row < max_free)%nat -> within max_free column ->
    shaped max_free dimension (add_column dimension free_row entry column st) /\
    excess i a (add_column dimension free_row entry column st) = excess i a st + excess_gain i a free_row entry column.
Proof.
    intros Hi Ha fr e col st Hs Hf Hc. split; [apply column_shape; auto|]. destruct Hs as [H1 H2]. destruct st as [red known]. unfold excess, excess_gain.
    destruct col as [v|c]; cbn [add_column fst snd chosen] in *.
    - rewrite (proj2 (known_column fr e v known H2 Hf dimension (le_n _))) by auto. rewrite (proj2 (Nat.ltb_lt a dimension)) by auto. rewrite andb_true_r. destruct (Nat.eqb i fr); ring.
    - rewrite (bsum_ext max_free _ (fun j => mget red i j * X j a + (if Nat.eqb j c then (if Nat.eqb i fr then e * X c a else 0) else 0))).
      + rewrite bsum_plus, bsum_delta by exact Hc. ring.
      + intros j Hj. rewrite (mget_mset max_free max_free) by auto. destruct (Nat.eqb_spec i fr) as [->|]; cbn [andb]; [|destruct (Nat.eqb j c); ring].
        destruct (Nat.eqb_spec j c) as [->|]; rnum; ring.
Qed.
End Reads.

(** ** The system of a plan *)
Definition terms_of (h : R) : mat R := match endpoint_mapping_inverse h with Ok inverse => in_endpoint_terms inverse h | _ => [] end.
Lemma zeros_shaped max_free dimension : shaped max_free dimension (mat_zeros max_free max_free, mat_zeros max_free dimension).
Proof. split; apply shape_zeros. Qed.
Lemma mget_zeros rows cols i j : mget (mat_zeros rows cols : mat R) i j = 0.
Proof.
  unfold mget, mat_zeros, mat_fn, from_fn, vget. destruct (Nat.lt_ge_cases i rows) as [H|H]; [|rewrite (nth_overflow (map _ _)) by (rewrite map_length, seq_length; lia); destruct j; reflexivity].
  assert (E : In (nth i (map (fun _ : nat => map (fun _ : nat => zero : R) (seq 0 cols)) (seq 0 rows)) []) (map (fun _ : nat => map (fun _ : nat => zero : R) (seq 0 cols)) (seq 0 rows))) by (apply nth_In; rewrite map_length, seq_length; lia).
  apply in_map_iff in E. destruct E as (k & <- & _). destruct (Nat.lt_ge_cases j cols) as [G|G]; [|apply nth_overflow; rewrite map_length, seq_length; lia].
  assert (E : In (nth j (map (fun _ : nat => zero : R) (seq 0 cols)) zero) (map (fun _ : nat => zero : R) (seq 0 cols))) by (apply nth_In; rewrite map_length, seq_length; lia).
  apply in_map_iff in E. destruct E as (l & <- & _). reflexivity.
Qed.
Section System.
  Variables (max_free dimension : nat) (start end_ : @boundary R) (waypoints : list (list R)) (durations : list R).
  Let n := List.length durations.
  Let kind := classify dimension start end_ waypoints n.
  Hypothesis Hroom : (3 * (n - 1) <= max_free)%nat.
  Hypothesis Hpos : forall k, (k < n)%nat -> 0 < nth k durations 0.
Lemma kind_within w r : (w <= n)%nat -> (r < 4)%nat -> within max_free (kind w r).
Proof.
    intros Hw Hr. unfold kind, classify. destruct (Nat.eqb_spec r 0), (Nat.eqb_spec w 0), (Nat.eqb_spec w n); cbn [within]; auto. unfold within. lia.
Qed.
Lemma kind_free w r : (1 <= w < n)%nat -> (1 <= r)%nat -> kind w r = Free (3 * (w - 1) + (r - 1)).
Proof. intros Hw Hr. unfold kind, classify. destruct (Nat.eqb_spec r 0), (Nat.eqb_spec w 0), (Nat.eqb_spec w n); try lia. reflexivity. Qed.
Lemma local_within s i : (s < n)%nat -> (i < 8)%nat -> within max_free (local_kind kind s i).
Proof. intros Hs Hi. apply kind_within; [|apply Nat.mod_upper_bound; lia]. pose proof (Nat.div_lt_upper_bound i 4 2 ltac:(lia) ltac:(lia)). lia. Qed.
  Variables (reduced known : mat R).
  Hypothesis Hasm : assemble dimension kind 0 durations (mat_zeros max_free max_free, mat_zeros max_free dimension) = Ok (reduced, known).
Lemma all_inverses k : (k < n)%nat -> exists inverse, endpoint_mapping_inverse (nth k durations 0) = Ok inverse.
Proof.
    intros Hk. destruct (assemble_gain max_free dimension kind (fun _ => 0) (fun _ _ _ => 0)) with (durations := durations) (segment := 0%nat) (st := (mat_zeros max_free max_free : mat R, mat_zeros max_free dimension : mat R)) (st' := (reduced, known)) as (_ & inv & I & _); auto.
    - intros fr e col st Hs Hf Hc. split; [apply column_shape; auto|ring].
    - intros s i Hs Hi. apply local_within; auto.
    - apply zeros_shaped.
    - exists (inv k). apply I, Hk.
Qed.
Lemma read_total read gain : (forall free_row entry column st, shaped max_free dimension st -> (free_row < max_free)%nat -> within max_free column ->
      shaped max_free dimension (add_column dimension free_row entry column st) /\ read (add_column dimension free_row entry column st) = read st + gain free_row entry column) ->
    read (mat_zeros max_free max_free, mat_zeros max_free dimension) = 0 ->
    shaped max_free dimension (reduced, known) /\ read (reduced, known) = bsum n (fun s => bsum 8 (row_gain kind gain s (terms_of (nth s durations 0)))).
Proof.
    intros Hr H0. destruct (assemble_gain max_free dimension kind read gain Hr durations 0 _ _ ltac:(intros s i Hs Hi; apply local_within; auto) (zeros_shaped _ _) Hasm) as (S1 & inv & I & E).
    split; [exact S1|]. rewrite E, H0, Rplus_0_l. apply bsum_ext. intros s Hs. unfold terms_of. rewrite (I s Hs). reflexivity.
Qed.
Lemma reduced_shape : shape max_free max_free reduced /\ shape max_free dimension known.
Proof.
    apply (read_total (fun _ => 0) (fun _ _ _ => 0)); [|reflexivity]. intros fr e col st Hs Hf Hc. split; [apply column_shape; auto|ring].
Qed.
  Definition is_free (i : nat) (k : @endpoint_derivative R) : R := match k with Free c => if Nat.eqb i c then 1 else 0 | Fixed _ => 0 end.
Lemma reduced_entry i j : (i < max_free)%nat -> (j < max_free)%nat ->
    mget reduced i j = bsum n (fun s => bsum 8 (fun lr => bsum 8 (fun lc => is_free i (local_kind kind s lr) * is_free j (local_kind kind s lc) * mget (terms_of (nth s durations 0)) lr lc))).
Proof.
    intros Hi Hj. destruct (read_total (fun st => mget (fst st) i j) (entry_gain i j) (entry_read max_free dimension i j Hi Hj)) as [_ E]; [apply mget_zeros|].
    cbn [fst] in E. rewrite E. apply bsum_ext. intros s Hs. apply bsum_ext. intros lr Hlr. unfold row_gain, entry_gain, is_free.
    destruct (local_kind kind s lr) as [v|c].
    - symmetry. rewrite (bsum_ext 8 _ (fun _ => 0)) by (intros; ring). apply bsum_0.
    - apply bsum_ext. intros lc Hlc. destruct (local_kind kind s lc); destruct (Nat.eqb i c); try destruct (Nat.eqb j _); ring.
Qed.
Lemma terms_of_symmetric k i j : (k < n)%nat -> (i < 8)%nat -> (j < 8)%nat -> mget (terms_of (nth k durations 0)) i j = mget (terms_of (nth k durations 0)) j i.
Proof. intros Hk Hi Hj. unfold terms_of. destruct (all_inverses k Hk) as [inv E]. rewrite E. apply terms_symmetric; auto. Qed.
Lemma reduced_symmetric i j : (i < max_free)%nat -> (j < max_free)%nat -> mget reduced i j = mget reduced j i.
Proof.
    intros Hi Hj. rewrite !reduced_entry by auto. apply bsum_ext. intros s Hs. rewrite bsum_swap. apply bsum_ext. intros lc Hlc. apply bsum_ext. intros lr Hlr.
    rewrite (terms_of_symmetric s lr lc) by auto. ring.
Qed.
  Variable X : nat -> nat -> R.
  Definition drawn (a s lr : nat) : R := times 8 (mget (terms_of (nth s durations 0))) (fun lc => chosen X (local_kind kind s lc) a) lr.
Lemma excess_row w r a s lr : (1 <= w < n)%nat -> (1 <= r <= 3)%nat -> (s < n)%nat -> (lr < 8)%nat ->
    row_gain kind (excess_gain X (3 * (w - 1) + (r - 1)) a) s (terms_of (nth s durations 0)) lr =
    if (Nat.eqb (s + lr / 4) w && Nat.eqb (lr mod 4) r)%bool then drawn a s lr else 0.
Proof.
    intros Hw Hr Hs Hlr. unfold row_gain, drawn, times, excess_gain. unfold local_kind at 1.
    assert (D : (lr mod 4 < 4)%nat) by (apply Nat.mod_upper_bound; lia). set (w' := (s + lr / 4)%nat) in *. set (r' := (lr mod 4)%nat) in *.
    destruct (Nat.eqb_spec w' w) as [Ew|Nw], (Nat.eqb_spec r' r) as [Er|Nr]; cbn [andb].
    1: { rewrite kind_free by lia. rewrite Ew, Er, Nat.eqb_refl. reflexivity. }
    all: unfold kind, classify; destruct (Nat.eqb_spec r' 0); [reflexivity|]; destruct (Nat.eqb_spec w' 0); [reflexivity|]; destruct (Nat.eqb_spec w' n); [reflexivity|].
    all: match goal with |- context [Nat.eqb ?a ?b] => destruct (Nat.eqb_spec a b); [exfalso; lia|] end; apply bsum_0.
Qed.
Lemma excess_joint w r a : (1 <= w < n)%nat -> (1 <= r <= 3)%nat -> (a < dimension)%nat ->
    excess max_free X (3 * (w - 1) + (r - 1)) a (reduced, known) = drawn a (w - 1) (4 + r) + drawn a w r.
Proof.
    intros Hw Hr Ha. destruct (read_total (excess max_free X (3 * (w - 1) + (r - 1)) a) (excess_gain X (3 * (w - 1) + (r - 1)) a)) as [_ E].
    - apply excess_read; [lia|exact Ha].
    - unfold excess. cbn [fst snd]. rewrite (bsum_ext max_free _ (fun _ => 0)) by (intros; rewrite mget_zeros; ring). rewrite bsum_0, mget_zeros. ring.
    - rewrite E. rewrite (bsum_ext n _ (fun s => (if Nat.eqb s (w - 1) then drawn a (w - 1) (4 + r) else 0) + (if Nat.eqb s w then drawn a w r else 0))).
      + rewrite bsum_plus, !bsum_delta by lia. reflexivity.
      + intros s Hs. rewrite (bsum_ext 8 _ (fun lr => if (Nat.eqb (s + lr / 4) w && Nat.eqb (lr mod 4) r)%bool then drawn a s lr else 0)) by (intros lr Hlr; apply excess_row; auto).
        unfold bsum. change (0 / 4)%nat with 0%nat. change (1 / 4)%nat with 0%nat. change (2 / 4)%nat with 0%nat. change (3 / 4)%nat with 0%nat.
        change (4 / 4)%nat with 1%nat. change (5 / 4)%nat with 1%nat. change (6 / 4)%nat with 1%nat. change (7 / 4)%nat with 1%nat.
        replace (Nat.eqb (s + 1) w) with (Nat.eqb s (w - 1)) by (destruct (Nat.eqb_spec (s + 1) w), (Nat.eqb_spec s (w - 1)); lia). rewrite Nat.add_0_r.
        assert (C : r = 1%nat \/ r = 2%nat \/ r = 3%nat) by lia.
        destruct C as [-> | [-> | ->]]; cbn [Nat.modulo Nat.divmod Nat.sub Nat.eqb snd andb plus]; rewrite ?andb_false_r, ?andb_true_r;
          destruct (Nat.eqb_spec s w), (Nat.eqb_spec s (w - 1)); try lia; try subst s; cbn [plus]; ring.
Qed.
  Hypothesis Hsolves : forall i a, (i < max_free)%nat -> (a < dimension)%nat -> bsum max_free (fun j => mget (snap_system max_free (3 * (n - 1)) reduced) i j * X j a) = mget known i a.
Lemma system_entry : forall i j, (i < 3 * (n - 1))%nat -> (j < max_free)%nat -> mget (snap_system max_free (3 * (n - 1)) reduced) i j = mget reduced i j.
Proof.
    set (f := (3 * (n - 1))%nat). set (m0 := mat_scale max_free max_free (mat_add reduced (transpose max_free max_free reduced)) half).
    assert (G : forall k, (f + k <= max_free)%nat -> let m := fold_left (fun system row => mset system row row one) (seq f k) m0 in
      shape max_free max_free m /\ forall i j, (i < f)%nat -> (j < max_free)%nat -> mget m i j = mget m0 i j).
    { induction k as [|k IH]; intros Hk m; [split; [apply shape_mat_fn|reflexivity]|]. unfold m. rewrite seq_S, fold_left_app. cbn [fold_left].
      destruct (IH ltac:(lia)) as [S1 S2]. split; [apply shape_mset, S1|]. intros i j Hi Hj. rewrite (mget_mset max_free max_free) by (auto; lia).
      destruct (Nat.eqb_spec i (f + k)); [lia|]. cbn [andb]. apply S2; auto. }
    intros i j Hi Hj. unfold snap_system, range. fold m0. rewrite (proj2 (G (max_free - f)%nat ltac:(unfold f in *; lia))) by auto.
    assert (Hi' : (i < max_free)%nat) by (unfold f in *; lia).
    unfold m0, mat_scale. rewrite mget_mat_fn by auto. unfold mat_add. destruct reduced_shape as [Hs _].
    rewrite (mget_map2 _ max_free max_free) by (auto; apply shape_mat_fn). rewrite mget_transpose by auto. rewrite <- (reduced_symmetric i j) by auto. rnum. field.
Qed.
Lemma joint_balance w r a : (1 <= w < n)%nat -> (1 <= r <= 3)%nat -> (a < dimension)%nat -> drawn a (w - 1) (4 + r) + drawn a w r = 0.
Proof.
    intros Hw Hr Ha. rewrite <- excess_joint by auto. unfold excess. cbn [fst snd].
    rewrite <- (Hsolves (3 * (w - 1) + (r - 1)) a) by (auto; lia).
    rewrite (bsum_ext max_free (fun j => mget (snap_system _ _ _) _ j * _) (fun j => mget reduced (3 * (w - 1) + (r - 1)) j * X j a)); [ring|].
    intros j Hj. rewrite system_entry by (auto; lia). reflexivity.
Qed.
End System.

(** C149: the distance between configurations and inverse kinematics from several starts. *)
From Coq Require Import ZArith List Bool Arith Reals Lra Lia.
From Verif Require Import Base.Scalar Base.RNum Base.Lists Base.Series Model.Errors Model.Vector Model.Matrix Model.Quaternion Model.Lie Model.Drive Model.Kalman Model.Ode Model.KinematicTree Model.InverseKinematics
  Spec.Matrix Spec.Motion Spec.Rotation Spec.Quaternion Spec.Space Spec.KinematicTree Spec.InverseKinematics Spec.MultiStart Proofs.Vector Proofs.Matrix Proofs.Quaternion Proofs.Rotation Proofs.Slerp Proofs.Stages Proofs.Space Proofs.KinematicTree Proofs.KinematicMotion Proofs.InverseKinematics
  Props.EstimationModels Props.KinematicTree Props.InverseKinematics.
Import ListNotations.
Local Open Scope R_scope.
Local Notation length := List.length.
Local Notation sqrt := R_sqrt.sqrt.
Local Notation cos := Rtrigo_def.cos.
Local Notation sin := Rtrigo_def.sin.

(** ** Any scalar: which answers are kept *)
Section AnyScalar.
Context {T : Type} {NT : Num T}.
Variables (mj mc max_starts : nat) (m : multi_start T) (t : tree T) (tool_index : nat) (target : se3 T).
Notation solved seed := (ik_solve mj mc (ms_solver m) t tool_index target seed).
Notation close := (same_branch t (ms_distinct_threshold m)).

Lemma close_dec r r' : {close r r'} + {~ close r r'}.
Proof. apply bool_dec. Qed.
Lemma insert_cases x sols : (length sols < max_starts)%nat ->
  ((exists k, In k sols /\ close k x) /\ ms_insert max_starts t x (ms_distinct_threshold m) sols = sols) \/
  ((forall k, In k sols -> ~ close k x) /\ ms_insert max_starts t x (ms_distinct_threshold m) sols = sols ++ [x]).
Proof.
  intros L. unfold ms_insert. destruct (existsb _ sols) eqn:E.
  - left. apply existsb_exists in E. auto.
  - right. rewrite (proj2 (Nat.ltb_lt _ _) L). split; [|reflexivity]. intros k I C. assert (E' := proj2 (existsb_exists (fun existing => configuration_distance (ik_joint_positions existing) (ik_joint_positions x) t <? ms_distinct_threshold m)%num sols) (ex_intro _ k (conj I C))). congruence.
Qed.
Lemma start_cases seed x r : solved seed = Ok x -> (length (ms_solutions r) < max_starts)%nat -> exists r',
  ms_start mj mc max_starts m t tool_index target seed r = Ok r' /\ ms_attempts r' = S (ms_attempts r) /\
  (((converged x = false \/ exists k, In k (ms_solutions r) /\ close k x) /\ ms_solutions r' = ms_solutions r) \/
   (converged x = true /\ (forall k, In k (ms_solutions r) -> ~ close k x) /\ ms_solutions r' = ms_solutions r ++ [x])).
Proof.
  intros E L. unfold ms_start. rewrite E. cbn [bind]. eexists. split; [reflexivity|]. cbn [ms_attempts ms_solutions]. split; [reflexivity|]. unfold converged.
  destruct (ik_termination x); [|left; auto|left; auto]. destruct (insert_cases x _ L) as [[H ->]|[H ->]]; [left|right]; auto.
Qed.

Lemma kept_length {A} (f : A -> bool) l : (length (filter f l) <= length l)%nat.
Proof. induction l as [|x l IH]; cbn; [lia|]. destruct (f x); cbn; lia. Qed.

Lemma run_spec seeds : forall r r', (length (ms_solutions r) + length seeds <= max_starts)%nat -> ms_run mj mc max_starts m t tool_index target seeds r = Ok r' ->
  exists attempts new, Forall2 (fun seed x => solved seed = Ok x) seeds attempts /\ ms_attempts r' = (ms_attempts r + length seeds)%nat /\ ms_solutions r' = ms_solutions r ++ new /\
    subsequence new (filter converged attempts) /\
    (ForallOrdPairs (fun x y => ~ close x y) (ms_solutions r) -> ForallOrdPairs (fun x y => ~ close x y) (ms_solutions r')) /\
    (forall before x after, attempts = before ++ x :: after -> converged x = true -> In x new \/ exists k, close k x /\ (In k (ms_solutions r) \/ (In k new /\ In k before))).
Proof.
  induction seeds as [|seed seeds IH]; intros r r' L H.
  - injection H as <-. exists [], []. split; [constructor|]. split; [cbn; lia|]. split; [symmetry; apply app_nil_r|]. split; [constructor|]. split; [auto|]. intros [|] ? ? E; discriminate E.
  - cbn [ms_run length] in H, L. destruct (solved seed) as [x|e|] eqn:E; unfold ms_start in H; rewrite E in H; cbn [bind] in H; try discriminate.
    destruct (start_cases seed x r E ltac:(lia)) as (r1 & E1 & A1 & C). unfold ms_start in E1. rewrite E in E1. cbn [bind] in E1. injection E1 as E1. rewrite E1 in H.
    assert (L1 : (length (ms_solutions r1) + length seeds <= max_starts)%nat) by (destruct C as [[_ ->]|(_ & _ & ->)]; rewrite ?app_length; cbn [length]; lia).
    destruct (IH r1 r' L1 H) as (attempts & new & F & A & N & S' & P & Q). destruct C as [[C EC]|(CV & C & EC)]; rewrite EC in *.
    + exists (x :: attempts), new. split; [constructor; assumption|]. split; [cbn [length]; lia|]. split; [exact N|]. split; [cbn [filter]; destruct (converged x); [constructor|]; exact S'|]. split; [exact P|].
      intros [|y before] z after EA CZ; injection EA as <- EA.
      * destruct C as [C|(k & I & C)]; [congruence|]. right. exists k. auto.
      * destruct (Q before z after EA CZ) as [I|(k & D & I)]; [auto|]. right. exists k. split; [exact D|]. destruct I as [I|[I J]]; [auto|right; split; [exact I|right; exact J]].
    + exists (x :: attempts), (x :: new). split; [constructor; assumption|]. split; [cbn [length]; lia|]. split; [rewrite N, <- app_assoc; reflexivity|]. split; [cbn [filter]; rewrite CV; constructor; exact S'|]. split.
      * intros FO. apply P. clear - FO C. induction (ms_solutions r) as [|y l IHl]; cbn; [repeat constructor|]. inversion FO as [|? ? F1 F2]; subst. constructor.
        -- apply Forall_app. split; [exact F1|]. constructor; [apply C; left; reflexivity|constructor].
        -- apply IHl; [|exact F2]. intros k I. apply C. right. exact I.
      * intros [|y before] z after EA CZ; injection EA as <- EA; [left; left; reflexivity|]. destruct (Q before z after EA CZ) as [I|(k & D & I)]; [left; right; exact I|]. right. exists k. split; [exact D|].
        destruct I as [I|[I J]]; [|right; split; right; assumption]. apply in_app_or in I as [I|[<-|[]]]; [auto|right; split; left; reflexivity].
Qed.

(** A run is refused for too many seeds before anything else. *)
Theorem C149_capacity seeds : (max_starts < length seeds)%nat -> solve_from_seeds mj mc max_starts m t tool_index target seeds = Err KiStartCapacityExceeded.
Proof. intros H. unfold solve_from_seeds. rewrite (proj2 (Nat.ltb_lt _ _) H). reflexivity. Qed.

(** What a report tells: every seed was solved; the answers kept are converged ones, in the order of their seeds; no two of them are the
    same branch; and a converged answer left out is the same branch as one that was found before it and kept. *)
Theorem C149_kept seeds r : solve_from_seeds mj mc max_starts m t tool_index target seeds = Ok r ->
  (length seeds <= max_starts)%nat /\ ms_attempts r = length seeds /\
  exists attempts, Forall2 (fun seed x => solved seed = Ok x) seeds attempts /\ subsequence (ms_solutions r) (filter converged attempts) /\
    ForallOrdPairs (fun x y => ~ close x y) (ms_solutions r) /\
    (forall before x after, attempts = before ++ x :: after -> converged x = true -> In x (ms_solutions r) \/ exists k, In k before /\ In k (ms_solutions r) /\ close k x).
Proof.
  unfold solve_from_seeds. destruct (Nat.ltb max_starts (length seeds)) eqn:E; [discriminate|]. apply Nat.ltb_ge in E. intros H.
  destruct (run_spec seeds ms_empty r ltac:(cbn; lia) H) as (attempts & new & F & A & N & S' & P & Q). cbn in A, N. rewrite N in *. split; [exact E|]. split; [exact A|]. exists attempts. split; [exact F|]. split; [exact S'|].
  split; [apply P; constructor|]. intros before x after EA C. destruct (Q before x after EA C) as [I|(k & D & [[]|[I J]])]; [auto|]. right. exists k. auto.
Qed.

(** One seed more: the answer is added when it converged and is none of the branches kept so far, and otherwise only the count changes.
    With no seeds there is nothing. *)
Lemma run_app seeds seed : forall r, ms_run mj mc max_starts m t tool_index target (seeds ++ [seed]) r = bind (ms_run mj mc max_starts m t tool_index target seeds r) (ms_start mj mc max_starts m t tool_index target seed).
Proof.
  induction seeds as [|s seeds IH]; intros r; cbn [app ms_run].
  - cbn [bind]. destruct (ms_start _ _ _ _ _ _ _ _ _); reflexivity.
  - destruct (ms_start mj mc max_starts m t tool_index target s r); cbn [bind]; auto.
Qed.
Theorem C149_next seeds r seed x : solve_from_seeds mj mc max_starts m t tool_index target seeds = Ok r -> (length seeds < max_starts)%nat -> solved seed = Ok x ->
  exists r', solve_from_seeds mj mc max_starts m t tool_index target (seeds ++ [seed]) = Ok r' /\ ms_attempts r' = S (ms_attempts r) /\
    (converged x = true -> (forall k, In k (ms_solutions r) -> ~ close k x) -> ms_solutions r' = ms_solutions r ++ [x]) /\
    (converged x = false \/ (exists k, In k (ms_solutions r) /\ close k x) -> ms_solutions r' = ms_solutions r).
Proof.
  intros H L X. pose proof (C149_kept seeds r H) as (_ & A & _). assert (LS : (length (ms_solutions r) <= length seeds)%nat).
  { destruct (C149_kept seeds r H) as (_ & _ & attempts & F & S' & _). assert (LF : length seeds = length attempts) by (clear - F; induction F; cbn; congruence). rewrite LF. clear - S'.
    assert (forall l l' : list (ik_report T), subsequence l l' -> (length l <= length l')%nat) as G by (intros l l' Q; induction Q; cbn; lia). apply G in S'. pose proof (kept_length converged attempts). lia. }
  unfold solve_from_seeds in *. destruct (Nat.ltb max_starts (length seeds)) eqn:E; [discriminate|]. rewrite app_length. cbn [length]. rewrite (proj2 (Nat.ltb_ge _ _)) by lia. rewrite run_app, H. cbn [bind].
  destruct (start_cases seed x r X ltac:(lia)) as (r' & E' & A' & C). exists r'. split; [exact E'|]. split; [exact A'|]. destruct C as [[C EC]|(CV & C & EC)].
  - split; [intros CV N|auto]. exfalso. destruct C as [C|(k & I & D)]; [congruence|]. exact (N k I D).
  - split; [auto|]. intros [D|(k & I & D)]; [congruence|]. exfalso. exact (C k I D).
Qed.
Theorem C149_empty : solve_from_seeds mj mc max_starts m t tool_index target [] = Ok {| ms_solutions := []; ms_attempts := 0 |}.
Proof. reflexivity. Qed.

(** The first seed that is refused decides the refusal. *)
Theorem C149_refusal before seed after e : (length (before ++ seed :: after) <= max_starts)%nat -> Forall (fun seed => exists x, solved seed = Ok x) before -> solved seed = Err e ->
  solve_from_seeds mj mc max_starts m t tool_index target (before ++ seed :: after) = Err e.
Proof.
  intros L F E. unfold solve_from_seeds. rewrite (proj2 (Nat.ltb_ge _ _) L). generalize (@ms_empty T). induction F as [|s l (x & X) F IH]; intros r; cbn [app ms_run]; unfold ms_start at 1.
  - rewrite E. reflexivity.
  - rewrite X. cbn [bind]. apply IH. cbn [app length] in L. lia.
Qed.
(** Every seed is solved when none is refused. *)
Theorem C149_answers seeds : (length seeds <= max_starts)%nat -> Forall (fun seed => exists x, solved seed = Ok x) seeds -> exists r, solve_from_seeds mj mc max_starts m t tool_index target seeds = Ok r.
Proof.
  intros L F. unfold solve_from_seeds. rewrite (proj2 (Nat.ltb_ge _ _) L). generalize (@ms_empty T). clear L. induction F as [|s l (x & X) F IH]; intros r; cbn [ms_run]; [eauto|]. unfold ms_start at 1. rewrite X. cbn [bind]. apply IH.
Qed.
(** What is kept meets the tolerances: its residuals are those of its configuration. *)
Theorem C149_solutions seeds r x : solve_from_seeds mj mc max_starts m t tool_index target seeds = Ok r -> In x (ms_solutions r) -> (0 < ik_maximum_iterations (ms_solver m))%nat ->
  (exists seed, In seed seeds /\ solved seed = Ok x) /\ residuals mj t tool_index target (ik_joint_positions x) (ik_position_error x) (ik_orientation_error x) /\
  within_tolerances (ms_solver m) (ik_position_error x) (ik_orientation_error x).
Proof.
  intros H I M. destruct (C149_kept seeds r H) as (_ & _ & attempts & F & S' & _).
  assert (G : forall l l' : list (ik_report T), subsequence l l' -> In x l -> In x l') by (intros l l' Q; induction Q; cbn; tauto). apply (G _ _ S'), filter_In in I as [I CV].
  assert (E : exists seed, In seed seeds /\ solved seed = Ok x) by (clear - F I; induction F; [destruct I|]; destruct I as [<-|I]; [eexists; split; [left; reflexivity|eassumption]|]; destruct (IHF I) as (s & A & B); exists s; split; [right|]; assumption).
  split; [exact E|]. destruct E as (seed & _ & E). destruct (C147_report mj mc (ms_solver m) t tool_index target seed x E M) as [R C]. split; [exact R|]. unfold converged in CV. destruct (ik_termination x); try discriminate. destruct C as (n & _ & _ & _ & W). exact W.
Qed.
Lemma kept_once seed x r : solved seed = Ok x -> solve_from_seeds mj mc max_starts m t tool_index target [seed; seed] = Ok r -> close x x -> ms_attempts r = 2%nat /\ (length (ms_solutions r) <= 1)%nat.
Proof.
  intros E H CX. destruct (C149_kept _ r H) as (_ & A & attempts & F & S' & O & _). split; [exact A|].
  inversion F as [|? x1 ? l1 E1 F1]; subst. inversion F1 as [|? x2 ? l2 E2 F2]; subst. inversion F2; subst. rewrite E in E1, E2. injection E1 as <-. injection E2 as <-.
  assert (IS : forall (l l' : list (ik_report T)) y, subsequence l l' -> In y l -> In y l') by (intros l l' y Q; induction Q; cbn; tauto).
  assert (AX : forall y, In y (ms_solutions r) -> y = x). { intros y I. apply (IS _ _ y S'), filter_In in I as [[<-|[<-|[]]] _]; reflexivity. }
  destruct (ms_solutions r) as [|y [|z l]]; cbn; try lia. exfalso. inversion O as [|? ? O1 _]; subst. inversion O1 as [|? ? O2 _]; subst. apply O2. rewrite (AX y), (AX z) by (cbn; auto). exact CX.
Qed.
End AnyScalar.

(** ** Any scalar: the starts that are drawn *)
Section Drawn.
Context {T : Type} {NT : Num T} {Rng : Type}.
Variable next_unit : Rng -> T * Rng.

Lemma after_add n k source : source_after next_unit (n + k) source = source_after next_unit k (source_after next_unit n source).
Proof. revert source. induction n as [|n IH]; intros source; [reflexivity|]. cbn. apply IH. Qed.
Lemma drawn_after n k source : drawn next_unit k (source_after next_unit n source) = drawn next_unit (n + k) source.
Proof. unfold drawn. rewrite after_add. reflexivity. Qed.
Lemma before_next (t : tree T) i j : tree_joint t i = Some j -> moving_before t (S i) = (moving_before t i + if moves j then 1 else 0)%nat.
Proof.
  unfold tree_joint, moving_before. generalize (tr_joints t) as l. clear t. intros l. revert i. induction l as [|x l IH]; intros [|i] H; try discriminate.
  - injection H as ->. cbn. destruct (moves j); reflexivity.
  - cbn [firstn filter]. specialize (IH i H). cbn in H. cbn [firstn] in IH |- *. destruct (moves x); cbn [filter length]; rewrite IH; destruct (moves j); lia.
Qed.

Section Tree.
Variables (mj mc : nat) (t : tree T).
Hypothesis B : built mj mc t.
Lemma moves_one j : moves j = true -> @readings_of T j = 1%nat.
Proof. unfold moves, readings_of. destruct (jt_kind j); cbn; congruence. Qed.

Lemma jitter_upto base span source n : length base = mc -> (n <= tree_len t)%nat ->
  let (seed, source') := fold_left (jitter_joint next_unit t base span) (seq 0 n) (base, source) in
  source' = source_after next_unit (moving_before t n) source /\ length seed = length base /\
  (forall i j at_, (i < n)%nat -> tree_joint t i = Some j -> config_offset t i = Some at_ -> moves j = true -> nth at_ seed zero = redrawn j (nth at_ base zero) span (drawn next_unit (moving_before t i) source)) /\
  (forall k, (forall i j at_, (i < n)%nat -> tree_joint t i = Some j -> config_offset t i = Some at_ -> moves j = true -> at_ <> k) -> nth k seed zero = nth k base zero).
Proof.
  intros L. induction n as [|n IH]; intros N.
  - cbn. split; [reflexivity|]. split; [reflexivity|]. split; [intros; lia|]. reflexivity.
  - rewrite seq_S, fold_left_app. specialize (IH ltac:(lia)). destruct (fold_left _ (seq 0 n) (base, source)) as [seed source']. destruct IH as (-> & LS & HD & HO).
    cbn [fold_left Nat.add]. unfold jitter_joint. destruct (tree_joint t n) as [j|] eqn:J.
    2: { exfalso. unfold tree_joint in J. apply nth_error_None in J. unfold tree_len in N. lia. }
    destruct (offset_some t n j J) as (a & b & A & _ & _). rewrite A. pose proof (before_next t n j J) as BN. unfold moves in BN. destruct (kind_eqb (jt_kind j) Fixed || kind_eqb (jt_kind j) Floating) eqn:K; cbn [negb] in BN.
    + rewrite BN, Nat.add_0_r. split; [reflexivity|]. split; [exact LS|]. split.
      * intros i j' a' I J' A' M. destruct (Nat.eq_dec i n) as [-> |NE]; [|apply HD; auto; lia]. rewrite J in J'. injection J' as <-. unfold moves in M. rewrite K in M. discriminate.
      * intros k H. apply HO. intros i j' a' I. apply H. lia.
    + assert (MJ : moves j = true) by (unfold moves; rewrite K; reflexivity).
      destruct (config_room mj mc t n j a B J A) as [RO1 RO2]. rewrite (moves_one j MJ) in RO1. rewrite (nth_error_nth' base zero) by lia.
      destruct (next_unit (source_after next_unit (moving_before t n) source)) as [u source''] eqn:U.
      assert (DU : drawn next_unit (moving_before t n) source = u) by (unfold drawn; rewrite U; reflexivity).
      split; [rewrite BN, after_add; cbn; rewrite U; reflexivity|]. split; [rewrite set_nth_length; exact LS|]. split.
      * intros i j' a' I J' A' M. destruct (Nat.eq_dec i n) as [-> |NE].
        -- rewrite J in J'. injection J' as <-. rewrite A in A'. injection A' as <-. rewrite nth_set_nth_eq by lia. unfold redrawn. rewrite DU. reflexivity.
        -- rewrite nth_set_nth_neq; [apply HD; auto; lia|]. intros E. apply (config_apart mj mc t n j a i j' a' 0 0 B J A J' A'); rewrite ?moves_one by assumption; lia.
      * intros k H. rewrite nth_set_nth_neq; [apply HO; intros i j' a' I; apply H; lia|]. apply (H n j a); auto.
Qed.
Lemma jitter_spec base span source : length base = mc -> let (seed, source') := jittered_seed next_unit t base span source in
  source' = source_after next_unit (moving_before t (tree_len t)) source /\ redraws next_unit source 0 t span base seed.
Proof.
  intros L. pose proof (jitter_upto base span source (tree_len t) L (le_n _)) as H. unfold jittered_seed. destruct (fold_left _ _ _) as [seed source']. destruct H as (E & LS & HD & HO). split; [exact E|]. split; [exact LS|].
  assert (G : forall i j, tree_joint t i = Some j -> (i < tree_len t)%nat) by (intros i j J; destruct (offset_some t i j J) as (_ & _ & _ & _ & I); exact I).
  split; [intros i j a J; apply HD; eauto|]. intros k H. apply HO. intros i j a _. apply H.
Qed.

Variables (max_starts : nat) (m : multi_start T) (tool_index : nat) (target : se3 T).
Notation actuated := (moving_before t (tree_len t)).
Lemma redraws_after source n first base seed : redraws next_unit (source_after next_unit n source) first t (ms_jitter_span m) base seed -> redraws next_unit source (n + first) t (ms_jitter_span m) base seed.
Proof.
  intros (L & D & O). split; [exact L|]. split; [|exact O]. intros i j a J A M. rewrite (D i j a J A M), drawn_after. do 2 f_equal. lia.
Qed.
Lemma seeded_run base count : length base = mc -> forall draw source r, (0 < draw)%nat -> exists seeds, length seeds = count /\
  fst (ms_seeded next_unit mj mc max_starts m t tool_index target base count draw source r) = ms_run mj mc max_starts m t tool_index target seeds r /\
  (forall k, (k < count)%nat -> redraws next_unit source (k * actuated) t (ms_jitter_span m) base (nth k seeds [])) /\
  ((exists r', fst (ms_seeded next_unit mj mc max_starts m t tool_index target base count draw source r) = Ok r') ->
   snd (ms_seeded next_unit mj mc max_starts m t tool_index target base count draw source r) = source_after next_unit (count * actuated) source).
Proof.
  intros L. induction count as [|count IH]; intros draw source r D; cbn [ms_seeded].
  - exists []. split; [reflexivity|]. split; [reflexivity|]. split; [intros; lia|]. reflexivity.
  - rewrite (proj2 (Nat.eqb_neq draw 0)) by lia. pose proof (jitter_spec base (ms_jitter_span m) source L) as J. destruct (jittered_seed _ _ _ _ _) as [seed source']. destruct J as [-> R].
    assert (K : forall seeds, (forall k, (k < count)%nat -> redraws next_unit (source_after next_unit actuated source) (k * actuated) t (ms_jitter_span m) base (nth k seeds [])) ->
      forall k, (k < S count)%nat -> redraws next_unit source (k * actuated) t (ms_jitter_span m) base (nth k (seed :: seeds) [])).
    { intros seeds H [|k] KL; [exact R|]. cbn [nth Nat.mul]. apply redraws_after, H. lia. }
    destruct (ms_start mj mc max_starts m t tool_index target seed r) as [r1|e|] eqn:E.
    + destruct (IH (S draw) (source_after next_unit actuated source) r1 ltac:(lia)) as (seeds & LS & F & H & N). exists (seed :: seeds). split; [cbn; congruence|]. cbn [ms_run]. rewrite E. cbn [bind]. split; [exact F|]. split; [apply K, H|].
      intros G. rewrite (N G), <- after_add. reflexivity.
    + destruct (IH (S draw) (source_after next_unit actuated source) r ltac:(lia)) as (seeds & LS & _ & H & _). exists (seed :: seeds). split; [cbn; congruence|]. cbn [ms_run]. rewrite E. cbn [bind]. split; [reflexivity|]. split; [apply K, H|].
      intros (r' & G). discriminate G.
    + destruct (IH (S draw) (source_after next_unit actuated source) r ltac:(lia)) as (seeds & LS & _ & H & _). exists (seed :: seeds). split; [cbn; congruence|]. cbn [ms_run]. rewrite E. cbn [bind]. split; [reflexivity|]. split; [apply K, H|].
      intros (r' & G). discriminate G.
Qed.

(** Drawn starts: the run is the one from the seed given and, after it, seeds in which every joint that moves is redrawn, each from a number
    of its own in the order of the source; everything else is copied.  An answered run takes from the source exactly the numbers it used. *)
Theorem C149_seeded base count source : length base = mc -> (0 < count <= max_starts)%nat -> exists seeds, length seeds = (count - 1)%nat /\
  fst (solve_seeded next_unit mj mc max_starts m t tool_index target base count source) = solve_from_seeds mj mc max_starts m t tool_index target (base :: seeds) /\
  (forall k, (k < count - 1)%nat -> redraws next_unit source (k * actuated) t (ms_jitter_span m) base (nth k seeds [])) /\
  ((exists r, fst (solve_seeded next_unit mj mc max_starts m t tool_index target base count source) = Ok r) ->
   snd (solve_seeded next_unit mj mc max_starts m t tool_index target base count source) = source_after next_unit ((count - 1) * actuated) source).
Proof.
  intros L [C1 C2]. destruct count as [|count]; [lia|]. unfold solve_seeded, solve_from_seeds. rewrite (proj2 (Nat.ltb_ge max_starts (S count))) by lia. cbn [ms_seeded Nat.eqb ms_run]. replace (S count - 1)%nat with count by lia.
  destruct (ms_start mj mc max_starts m t tool_index target base ms_empty) as [r1|e|] eqn:E.
  1: destruct (seeded_run base count L 1 source r1 ltac:(lia)) as (seeds & LS & F & H & N).
  2-3: destruct (seeded_run base count L 1 source ms_empty ltac:(lia)) as (seeds & LS & F & H & N).
  all: exists seeds; split; [exact LS|]; cbn [length]; rewrite (proj2 (Nat.ltb_ge _ _)) by lia; cbn [bind]; split; [first [exact F|reflexivity]|]; split; [exact H|].
  - exact N.
  - intros (r & G). discriminate G.
  - intros (r & G). discriminate G.
Qed.
Theorem C149_seeded_none base source : solve_seeded next_unit mj mc max_starts m t tool_index target base 0 source = (Ok {| ms_solutions := []; ms_attempts := 0 |}, source).
Proof. unfold solve_seeded. destruct (Nat.ltb_spec max_starts 0); [lia|]. reflexivity. Qed.
Theorem C149_seeded_capacity base count source : (max_starts < count)%nat -> solve_seeded next_unit mj mc max_starts m t tool_index target base count source = (Err KiStartCapacityExceeded, source).
Proof. intros H. unfold solve_seeded. rewrite (proj2 (Nat.ltb_lt _ _) H). reflexivity. Qed.
End Tree.
End Drawn.

(** ** The reals *)
(** A redrawn reading lies between the limits, or within the span of the reading it replaces. *)
Theorem C149_redrawn mj mc (t : tree R) i j reading span u : built mj mc t -> tree_joint t i = Some j -> 0 <= u < 1 ->
  (forall lower upper, jt_limits j = Some (lower, upper) -> lower <= redrawn j reading span u <= upper) /\
  (jt_limits j = None -> Rabs (redrawn j reading span u - reading) <= Rabs span).
Proof.
  intros B J U. unfold redrawn. split.
  - intros lower upper LL. rewrite LL. rnum. destruct (built_limits mj mc t B i j lower upper J LL) as [H _]. split; nra.
  - intros ->. rnum. unfold two. rnum. replace (reading + (u * 2 - 1) * span - reading) with ((u * 2 - 1) * span) by ring. rewrite Rabs_mult. pose proof (Rabs_pos span). assert (Rabs (u * 2 - 1) <= 1) by (apply Rabs_le; lra). nra.
Qed.

(** The nearest of the answers kept is returned, the first of them where several are equally near, and none when none was kept. *)
Theorem C149_closest (t : tree R) reference (report : ms_report R) :
  let d x := configuration_distance (ik_joint_positions x) reference t in
  match closest_to t reference report with
  | None => ms_solutions report = []
  | Some x => exists before after, ms_solutions report = before ++ x :: after /\ (forall y, In y before -> d x < d y) /\ (forall y, In y after -> d x <= d y)
  end.
Proof.
  intros d. unfold closest_to.
  assert (H : forall l, match fold_left (closer t reference) l None with
    | None => l = [] | Some (x, e) => e = d x /\ exists before after, l = before ++ x :: after /\ (forall y, In y before -> d x < d y) /\ (forall y, In y after -> d x <= d y) end).
  { induction l as [|z l IH] using rev_ind; [reflexivity|]. rewrite fold_left_app. cbn [fold_left]. destruct (fold_left _ l None) as [[x e]|].
    - destruct IH as (-> & before & after & -> & H1 & H2). unfold closer. fold (d z). rnum. destruct (Rltb (d z) (d x)) eqn:E; rcases.
      + split; [reflexivity|]. exists (before ++ x :: after), []. split; [reflexivity|]. split; [|intros y []]. intros y I. apply in_app_or in I as [I|[<-|I]]; [apply H1 in I|exact E|apply H2 in I]; lra.
      + split; [reflexivity|]. exists before, (after ++ [z]). split; [rewrite <- app_assoc; reflexivity|]. split; [exact H1|]. intros y I. apply in_app_or in I as [I|[<-|[]]]; [auto|lra].
    - subst l. cbn. split; [reflexivity|]. exists [], []. split; [reflexivity|]. split; intros y []. }
  specialize (H (ms_solutions report)). destruct (fold_left _ _ _) as [[x e]|]; cbn [option_map fst]; [apply H|exact H].
Qed.

(** ** The distance of two configurations *)
Lemma length_square v : Spec.Rotation.length v * Spec.Rotation.length v = inner v v.
Proof. unfold Spec.Rotation.length. apply sqrt_sqrt. destruct v as [[x y] z]. cbn. nra. Qed.
Lemma place_R q at_ j : jt_kind j = Floating ->
  (has_orientation q at_ j -> place_of q at_ = Some (FreeJoint (SE3 (quat_scale (floating_quaternion q at_) (/ quat_norm (floating_quaternion q at_))) (nth (at_ + 0) q 0, nth (at_ + 1) q 0, nth (at_ + 2) q 0)) (twist_from_vector (zeros3, zeros3)))) /\
  (~ has_orientation q at_ j -> place_of q at_ = None).
Proof.
  intros K. unfold place_of, from_generalized_vectors, quat_from_array. rnum. fold (floating_quaternion q at_). unfold quat_try_normalized. cbn [is_finite Rnum negb orb]. rnum. split.
  - intros H. pose proof (orientation_pos q at_ j H K) as P. specialize (H K). fold (floating_quaternion q at_) in H.
    replace (Rleb _ _) with false by (symmetry; apply Rleb_false; unfold Rdiv in H; rewrite Rmult_1_l in H; lra). unfold so3_from_quaternion. rewrite Slerp.normalized_unit by (apply scaled_unit, P). reflexivity.
  - intros H. replace (Rleb _ _) with true; [reflexivity|]. symmetry. apply Rleb_true. apply Rnot_lt_le. intros G. apply H. intros _. fold (floating_quaternion q at_). unfold Rdiv. rewrite Rmult_1_l. exact G.
Qed.
Lemma orientation_dec q at_ j : has_orientation q at_ j \/ ~ has_orientation q at_ j.
Proof.
  unfold has_orientation. destruct (jt_kind j); try (left; discriminate). destruct (Rlt_dec (1 / IZR (2^52)) (quat_norm (Quat (nth (at_ + 3) q 0) (nth (at_ + 4) q 0) (nth (at_ + 5) q 0) (nth (at_ + 6) q 0)))) as [H|H]; [left; auto|right]. intros G. apply H, G. reflexivity.
Qed.
Lemma log_measure p q : 0 < quat_norm p -> 0 < quat_norm q -> let c := quat_mul (conjugate (quat_scale p (/ quat_norm p))) (quat_scale q (/ quat_norm q)) in
  turned_apart p q (Spec.Rotation.length (to_scaled_axis c)).
Proof.
  intros P Q c. assert (U : unit_quaternion c) by (apply unit_mul; [apply unit_conjugate|]; apply scaled_unit; assumption).
  pose proof (half_angle_range c) as HR. destruct (half_angle_polar c U) as [C S']. exists (2 * half_angle c). replace (2 * half_angle c / 2) with (half_angle c) by field. split; [lra|]. split.
  - rewrite C. assert (E : qw c = (qw p * qw q + qx p * qx q + qy p * qy q + qz p * qz q) / (quat_norm p * quat_norm q)).
    { unfold c, quat_mul, conjugate, quat_scale. cbn [qw qx qy qz]. rnum. field. lra. }
    assert (EA : qw (shortest c) = Rabs (qw c)). { unfold shortest. destruct (Rltb (qw c) 0) eqn:L; rcases; [unfold quat_neg; cbn [qw]; rnum; rewrite Rabs_left by lra; ring|rewrite Rabs_pos_eq by lra; reflexivity]. }
    rewrite EA, E. unfold Rdiv. rewrite Rabs_mult. f_equal. apply Rabs_pos_eq. left. apply Rinv_0_lt_compat. nra.
  - rewrite S', vec_shortest_length. fold small. destruct (Rlt_dec _ _) as [L|L].
    + rewrite to_scaled_axis_R. destruct (Rlt_dec _ _); [|lra]. rewrite length_multiple, vec_shortest_length, Rabs_pos_eq by lra. reflexivity.
    + apply (log_large c U). lra.
Qed.
Lemma joint_apart a b at_ j : (at_ + readings_of j <= length a)%nat -> (at_ + readings_of j <= length b)%nat ->
  exists s, apart a b at_ j s /\ 0 <= s /\ forall total, fold_left add (joint_distance_squared a b at_ j) total = total + s.
Proof.
  unfold readings_of, apart, joint_distance_squared. intros LA LB. destruct (jt_kind j) eqn:K; cbv zeta; rewrite ?Nat.add_0_r.
  1,2: rewrite !read_R by lia; eexists; split; [reflexivity|]; split; [apply pow2_ge_0|]; intros total; cbn [fold_left]; rnum; ring.
  - rewrite !read_R by lia. destruct (C134_wrap (nth at_ a 0 - nth at_ b 0)) as (k & E & W). exists ((nth at_ a 0 - nth at_ b 0 - 2 * PI * IZR k) ^ 2). split; [exists k; split; [rewrite <- E; exact W|reflexivity]|]. split; [apply pow2_ge_0|].
    intros total. cbn [fold_left]. rnum. rewrite E. ring.
  - exists 0. split; [reflexivity|]. split; [lra|]. intros total. cbn. ring.
  - destruct (place_R a at_ j K) as [PA NA], (place_R b at_ j K) as [PB NB]. destruct (orientation_dec a at_ j) as [HA|HA]; [destruct (orientation_dec b at_ j) as [HB|HB]|].
    + rewrite (PA HA), (PB HB). cbn [fj_pose se3_translation se3_rotation]. unfold so3_log, so3_compose, so3_inverse.
      pose proof (log_measure _ _ (orientation_pos a at_ j HA K) (orientation_pos b at_ j HB K)) as M. cbv zeta in M. set (v := to_scaled_axis _) in *.
      exists ((nth (at_ + 0) a 0 - nth (at_ + 0) b 0) ^ 2 + (nth (at_ + 1) a 0 - nth (at_ + 1) b 0) ^ 2 + (nth (at_ + 2) a 0 - nth (at_ + 2) b 0) ^ 2 + Spec.Rotation.length v ^ 2). split; [|split].
      * split; [|intros N; exfalso; apply N; auto]. intros _. exists (Spec.Rotation.length v). split; [exact M|rewrite Nat.add_0_r; reflexivity].
      * pose proof (pow2_ge_0 (nth (at_ + 0) a 0 - nth (at_ + 0) b 0)). pose proof (pow2_ge_0 (nth (at_ + 1) a 0 - nth (at_ + 1) b 0)). pose proof (pow2_ge_0 (nth (at_ + 2) a 0 - nth (at_ + 2) b 0)). pose proof (pow2_ge_0 (Spec.Rotation.length v)). lra.
      * intros total. cbn [fold_left]. rewrite !dot3_R, sub3_R, <- (length_square v). cbn. rnum. ring.
    + rewrite (PA HA), (NB HB). exists 0. split; [split; [tauto|reflexivity]|]. split; [lra|]. intros total. cbn. ring.
    + rewrite (NA HA). exists 0. split; [split; [tauto|reflexivity]|]. split; [lra|]. intros total. cbn. ring.
Qed.

Lemma cos_half_unique u v : 0 <= u <= PI -> 0 <= v <= PI -> cos (u / 2) = cos (v / 2) -> u = v.
Proof.
  intros U V E. destruct (Rtotal_order u v) as [H|[H|H]]; [exfalso|exact H|exfalso].
  - pose proof (cos_decreasing_1 (u / 2) (v / 2) ltac:(lra) ltac:(lra) ltac:(lra) ltac:(lra) ltac:(lra)). lra.
  - pose proof (cos_decreasing_1 (v / 2) (u / 2) ltac:(lra) ltac:(lra) ltac:(lra) ltac:(lra) ltac:(lra)). lra.
Qed.
Lemma turned_unique p q r r' : turned_apart p q r -> turned_apart p q r' -> r = r'.
Proof. intros (u & U & C & ->) (v & V & D & ->). rewrite (cos_half_unique u v U V) by congruence. reflexivity. Qed.
Lemma turned_sym p q r : turned_apart p q r -> turned_apart q p r.
Proof. intros (u & U & C & E). exists u. split; [exact U|]. split; [|exact E]. rewrite C. f_equal; [f_equal|]; ring. Qed.
Lemma turned_self p r : 0 < quat_norm p -> turned_apart p p r -> r = 0.
Proof.
  intros P (u & U & C & ->). assert (Z : u = 0).
  { apply cos_half_unique; [exact U|pose proof PI_RGT_0; lra|]. rewrite C. replace (0 / 2) with 0 by field. rewrite cos_0. pose proof (quat_norm_sqr p) as N. unfold quat_norm_squared in N. rnum.
    replace (qw p * qw p + qx p * qx p + qy p * qy p + qz p * qz p) with (quat_norm p * quat_norm p) by (rewrite N; ring). rewrite Rabs_pos_eq by nra. field. lra. }
  subst u. replace (0 / 2) with 0 by field. rewrite sin_0. destruct (Rlt_dec _ _); ring.
Qed.
Lemma short_turn_unique x k k' : - PI <= x - 2 * PI * IZR k <= PI -> - PI <= x - 2 * PI * IZR k' <= PI -> (x - 2 * PI * IZR k) ^ 2 = (x - 2 * PI * IZR k') ^ 2.
Proof.
  intros H H'. pose proof PI_RGT_0 as P. destruct (Z.eq_dec k k') as [-> |N]; [reflexivity|].
  assert (D : (k' = k + 1 \/ k = k' + 1)%Z).
  { assert (A : -1 <= IZR k - IZR k' <= 1) by (split; nra). rewrite <- minus_IZR in A. destruct A as [A1 A2]. apply le_IZR in A1, A2. lia. }
  destruct D as [-> | ->]; rewrite plus_IZR in *.
  - assert (x = 2 * PI * IZR k + PI) by nra. subst x. ring.
  - assert (x = 2 * PI * IZR k' + PI) by nra. subst x. ring.
Qed.
Lemma apart_unique a b at_ j s s' : apart a b at_ j s -> apart a b at_ j s' -> s = s'.
Proof.
  unfold apart. cbv zeta. destruct (jt_kind j); try congruence.
  - intros (k & B & ->) (k' & B' & ->). apply short_turn_unique; assumption.
  - intros [H N] [H' N']. destruct (orientation_dec a at_ j) as [HA|HA]; [destruct (orientation_dec b at_ j) as [HB|HB]|]; [|rewrite N, N' by tauto; reflexivity|rewrite N, N' by tauto; reflexivity].
    destruct (H (conj HA HB)) as (r & R & ->), (H' (conj HA HB)) as (r' & R' & ->). rewrite (turned_unique _ _ _ _ R R'). reflexivity.
Qed.
Lemma apart_sym a b at_ j s : apart a b at_ j s -> apart b a at_ j s.
Proof.
  unfold apart. cbv zeta. destruct (jt_kind j); try (intros ->; ring); auto.
  - intros (k & B & ->). exists (- k)%Z. rewrite opp_IZR. split; [lra|ring].
  - intros [H N]. split; [intros [HB HA]; destruct (H (conj HA HB)) as (r & R & ->); exists r; split; [apply turned_sym, R|ring]|]. intros G. apply N. tauto.
Qed.
Lemma apart_self a at_ j s : apart a a at_ j s -> s = 0.
Proof.
  unfold apart. cbv zeta. destruct (jt_kind j) eqn:K; try (intros ->; ring).
  - intros (k & B & ->). rewrite (short_turn_unique _ k 0 B); [ring|]. pose proof PI_RGT_0. lra.
  - intros [H N]. destruct (orientation_dec a at_ j) as [HA|HA]; [|apply N; tauto]. destruct (H (conj HA HA)) as (r & R & ->). apply turned_self in R; [subst r; ring|]. apply (orientation_pos a at_ j HA K).
Qed.

Section Distance.
Variables (mj mc : nat) (t : tree R).
Hypothesis B : built mj mc t.
(** The distance is the root of the sum, over the joints, of what each is apart: a joint's own difference; the short way round for a joint that
    turns for ever; position and angle between the orientations for a floating one; nothing for a fixed one. *)
Theorem C149_distance a b : length a = mc -> length b = mc -> exists squared : nat -> R,
  (forall i j at_, tree_joint t i = Some j -> config_offset t i = Some at_ -> apart a b at_ j (squared i) /\ 0 <= squared i) /\
  configuration_distance a b t = sqrt (bsum (tree_len t) squared).
Proof.
  intros LA LB. assert (H : forall n, (n <= tree_len t)%nat -> exists squared : nat -> R, (forall i j at_, (i < n)%nat -> tree_joint t i = Some j -> config_offset t i = Some at_ -> apart a b at_ j (squared i) /\ 0 <= squared i) /\
    fold_left (fun total index => match tree_joint t index, config_offset t index with Some j, Some offset => fold_left add (joint_distance_squared a b offset j) total | _, _ => total end) (seq 0 n) 0 = bsum n squared).
  { induction n as [|n IH]; intros N; [exists (fun _ => 0); split; [intros; lia|reflexivity]|]. destruct (IH ltac:(lia)) as (sq & A & E). rewrite seq_S, fold_left_app, E. cbn [fold_left Nat.add].
    destruct (tree_joint t n) as [j|] eqn:J; [|exfalso; unfold tree_joint in J; apply nth_error_None in J; unfold tree_len in N; lia]. destruct (offset_some t n j J) as (at_ & b' & O & _ & _). rewrite O.
    destruct (config_room mj mc t n j at_ B J O) as [R1 R2]. destruct (joint_apart a b at_ j ltac:(lia) ltac:(lia)) as (s & AP & P & F). rewrite F.
    exists (fun i => if Nat.eqb i n then s else sq i). split.
    - intros i j' at' I J' O'. destruct (Nat.eqb_spec i n) as [-> |NE]; [|apply A; auto; lia]. rewrite J in J'. injection J' as <-. rewrite O in O'. injection O' as <-. auto.
    - cbn [bsum]. rewrite Nat.eqb_refl. f_equal. apply bsum_ext. intros i I. rewrite (proj2 (Nat.eqb_neq i n)) by lia. reflexivity. }
  destruct (H (tree_len t) (le_n _)) as (sq & A & E). exists sq. split.
  - intros i j at_ J. apply A; auto. destruct (offset_some t i j J) as (_ & _ & _ & _ & I). exact I.
  - unfold configuration_distance. rnum. f_equal. exact E.
Qed.
Lemma joint_here i : (i < tree_len t)%nat -> exists j at_, tree_joint t i = Some j /\ config_offset t i = Some at_.
Proof.
  intros I. destruct (tree_joint t i) as [j|] eqn:J; [|exfalso; unfold tree_joint in J; apply nth_error_None in J; unfold tree_len in I; lia]. destruct (offset_some t i j J) as (a & b & A & _). eauto.
Qed.
(** It is never negative, the same both ways, and zero from a configuration to itself; it does not see whole turns of a joint that turns for ever. *)
Theorem C149_metric a b : length a = mc -> length b = mc ->
  0 <= configuration_distance a b t /\ configuration_distance a b t = configuration_distance b a t /\ configuration_distance a a t = 0.
Proof.
  intros LA LB. destruct (C149_distance a b LA LB) as (s & A & ->), (C149_distance b a LB LA) as (s' & A' & ->), (C149_distance a a LA LA) as (s0 & A0 & ->). split; [apply sqrt_pos|]. split.
  - f_equal. apply bsum_ext. intros i I. destruct (joint_here i I) as (j & at_ & J & O). eapply apart_unique; [apply (A i j at_ J O)|apply apart_sym, (A' i j at_ J O)].
  - rewrite (bsum_ext _ s0 (fun _ => 0)); [rewrite bsum_0; apply sqrt_0|]. intros i I. destruct (joint_here i I) as (j & at_ & J & O). eapply apart_self, (A0 i j at_ J O).
Qed.
Theorem C149_whole_turns a a' b : length a = mc -> length a' = mc -> length b = mc ->
  (forall i j at_ k, tree_joint t i = Some j -> config_offset t i = Some at_ -> (k < readings_of j)%nat ->
     if kind_eqb (jt_kind j) Continuous then exists turns : Z, nth (at_ + k) a' 0 = nth (at_ + k) a 0 + 2 * PI * IZR turns else nth (at_ + k) a' 0 = nth (at_ + k) a 0) ->
  configuration_distance a' b t = configuration_distance a b t.
Proof.
  intros LA LA' LB H. destruct (C149_distance a b LA LB) as (s & A & ->), (C149_distance a' b LA' LB) as (s' & A' & ->). f_equal. apply bsum_ext. intros i I. destruct (joint_here i I) as (j & at_ & J & O).
  destruct (A i j at_ J O) as [P _], (A' i j at_ J O) as [P' _]. pose proof (fun k => H i j at_ k J O) as G. eapply apart_unique; [exact P'|]. clear P' A A'. unfold apart, readings_of in *. cbv zeta in *. destruct (jt_kind j) eqn:K; cbn [kind_eqb] in G.
  - rewrite (G 0%nat) by lia. exact P.
  - rewrite (G 0%nat) by lia. exact P.
  - destruct P as (k & W & E). destruct (G 0%nat ltac:(lia)) as (k' & ->). exists (k + k')%Z. rewrite plus_IZR. split; [lra|]. rewrite E. ring.
  - exact P.
  - assert (HO : has_orientation a' at_ j <-> has_orientation a at_ j) by (unfold has_orientation; rewrite !G by lia; tauto). rewrite !G by lia. destruct P as [P Q]. split; [intros [X Y]; apply P; tauto|intros X; apply Q; tauto].
Qed.
(** The joints that slide or turn between limits are no further apart than the configurations are. *)
Theorem C149_plain a b i j at_ : length a = mc -> length b = mc -> tree_joint t i = Some j -> config_offset t i = Some at_ -> jt_kind j = Revolute \/ jt_kind j = Prismatic ->
  Rabs (nth at_ a 0 - nth at_ b 0) <= configuration_distance a b t.
Proof.
  intros LA LB J O K. destruct (C149_distance a b LA LB) as (s & A & ->). assert (E : s i = (nth at_ a 0 - nth at_ b 0) ^ 2) by (destruct (A i j at_ J O) as [P _]; unfold apart in P; rewrite Nat.add_0_r in P; destruct K as [K|K]; rewrite K in P; exact P).
  rewrite <- sqrt_Rsqr_abs. apply sqrt_le_1_alt. unfold Rsqr. replace ((nth at_ a 0 - nth at_ b 0) * (nth at_ a 0 - nth at_ b 0)) with (s i) by (rewrite E; ring).
  destruct (offset_some t i j J) as (_ & _ & _ & _ & I). apply (Stages.bsum_term (tree_len t) s i); [|exact I]. intros k L. destruct (joint_here k L) as (j' & o & J' & O'). apply (A k j' o J' O').
Qed.
End Distance.

(** A floating joint whose quaternion has no direction counts for nothing, however far apart the positions are: nought does not mean the same place. *)
Theorem C149_unreadable_refuted : exists (t : tree R) a b, built 2 8 t /\ length a = 8%nat /\ length b = 8%nat /\ nth 0 a 0 <> nth 0 b 0 /\
  (exists j, tree_joint t 0 = Some j /\ jt_kind j = Floating) /\ configuration_distance a b t = 0.
Proof.
  exists carried_arm, [0; 0; 0; 0; 0; 0; 0; 0], [5; 0; 0; 0; 0; 0; 0; 0]. split; [apply carried_arm_built|]. split; [reflexivity|]. split; [reflexivity|]. split; [cbn; lra|]. split; [eexists; split; reflexivity|].
  destruct (C149_distance 2 8 carried_arm carried_arm_built [0; 0; 0; 0; 0; 0; 0; 0] [5; 0; 0; 0; 0; 0; 0; 0] eq_refl eq_refl) as (s & A & ->).
  assert (S0 : s 0%nat = 0). { destruct (A 0%nat _ 0%nat eq_refl eq_refl) as [[_ N] _]. apply N. intros [H _]. specialize (H eq_refl). cbn [nth Nat.add] in H. pose proof (quat_norm_sqr (Quat 0 0 0 0)) as Q. unfold quat_norm_squared in Q. cbn [qw qx qy qz] in Q. rnum.
    assert (0 < 1 / IZR (2^52)) by (apply Rdiv_lt_0_compat; [lra|apply IZR_lt; reflexivity]). nra. }
  assert (S1 : s 1%nat = 0). { destruct (A 1%nat _ 7%nat eq_refl eq_refl) as [P _]. unfold apart in P. cbn in P. rewrite P. ring. }
  cbn [tree_len carried_arm tr_joints List.length bsum]. rewrite S0, S1. replace (0 + 0 + 0) with 0 by ring. apply sqrt_0.
Qed.

(** ** Concrete cases *)
(** 3 and -3 radians of a joint that turns for ever are 2 pi - 6 apart. *)
Definition spinner : joint R := {| jt_kind := Continuous; jt_axis := (0, 0, 1); jt_anchor := (0, 0, 0); jt_origin := se3_identity; jt_zero_offset := 0; jt_limits := None; jt_armature := 0; jt_damping := 0; jt_friction_loss := 0 |}.
Definition wheel : tree R := {| tr_joints := [as_stored spinner]; tr_parents := [World] |}.
Lemma wheel_built : built 1 1 wheel.
Proof.
  destruct (C144_push 1 1 spinner World tree_new) as [[_ E]|[N _]]; [exact (built_push 1 1 _ _ _ _ (built_new 1 1) E)|]. exfalso. apply N.
  split; [discriminate|]. split; [discriminate|]. split; [discriminate|]. split; [reflexivity|]. split; [discriminate|]. split; [|cbn; lia]. intros _. rewrite try_normalized3_R. destruct (Req_EM_T _ _) as [E|E]; [|discriminate].
  exfalso. revert E. unfold Spec.Rotation.length. cbn. replace (0 * 0 + 0 * 0 + 1 * 1) with 1 by ring. rewrite sqrt_1. lra.
Qed.
Lemma spinner_kind : jt_kind (as_stored spinner) = Continuous.
Proof. unfold as_stored. cbn [jt_kind spinner]. destruct (try_normalized3 _); reflexivity. Qed.
Lemma PI_above_3 : 3 < PI.
Proof. pose proof PI2_3_2. unfold PI2 in *. lra. Qed.
Example C149_example :
  configuration_distance [3] [-3] wheel = 2 * PI - 6 /\
  (let m := ms_new (T := R) 8 in let target := SE3 quat_identity (3, 2, 1) in let seed := [0; 0; 0; 1; 0; 0; 0; 100] in
   (exists r, solve_from_seeds 2 8 4 m carried_arm 1 target [seed; seed] = Ok r /\ ms_attempts r = 2%nat /\ (length (ms_solutions r) <= 1)%nat) /\
   solve_from_seeds 2 8 1 m carried_arm 1 target [seed; seed] = Err KiStartCapacityExceeded /\
   solve_from_seeds 2 8 4 m carried_arm 2 target [seed; seed] = Err KiToolIndexOutOfRange).
Proof.
  split.
  - destruct (C149_distance 1 1 wheel wheel_built [3] [-3] eq_refl eq_refl) as (s & A & ->). assert (O : config_offset wheel 0 = Some 0%nat) by (unfold config_offset; cbn [Nat.leb tree_len wheel tr_joints List.length Nat.ltb]; rewrite andb_false_r; reflexivity).
    destruct (A 0%nat (as_stored spinner) 0%nat eq_refl O) as [P _]. unfold apart in P. rewrite spinner_kind in P. cbn [nth Nat.add] in P. destruct P as (k & W & E).
    pose proof PI_above_3. pose proof PI_4. rewrite (short_turn_unique (3 - -3) k 1 W) in E by (rewrite Rmult_1_r; lra). cbn [tree_len wheel tr_joints List.length bsum]. rewrite E, Rplus_0_l, Rmult_1_r.
    replace ((3 - -3 - 2 * PI) ^ 2) with ((2 * PI - 6) * (2 * PI - 6)) by ring. apply sqrt_square. lra.
  - intros m target seed. split; [|split; reflexivity].
    destruct (C147_answers 2 8 carried_arm carried_arm_built (ms_solver m) 1 target seed eq_refl ltac:(cbn; lia)) as [x E].
    + intros i I. exists 1. split; [|lra]. cbn in I. do 8 (destruct i as [|i]; [reflexivity|]). lia.
    + intros [|[|i]] j at_ J A; try (destruct i; discriminate J); injection J as <-; [|discriminate]. injection A as <-. intros _. apply one_orientation.
    + destruct (C149_answers 2 8 4 m carried_arm 1 target [seed; seed] ltac:(cbn; lia)) as [r H]; [repeat constructor; eauto|]. exists r. split; [exact H|].
      apply (kept_once 2 8 4 m carried_arm 1 target seed x r E H). unfold same_branch.
      destruct (C147_limits 2 8 carried_arm carried_arm_built (ms_solver m) 1 target seed x eq_refl E) as (LX & _). destruct (C149_metric 2 8 carried_arm carried_arm_built _ _ LX LX) as (_ & _ & ->).
      apply Rltb_true. unfold m, ms_new. cbn [ms_distinct_threshold]. rnum. lra.
Qed.
Print Assumptions C149_capacity.
Print Assumptions C149_kept.
Print Assumptions C149_next.
Print Assumptions C149_empty.
Print Assumptions C149_refusal.
Print Assumptions C149_answers.
Print Assumptions C149_solutions.
Print Assumptions C149_seeded.
Print Assumptions C149_seeded_none.
Print Assumptions C149_seeded_capacity.
Print Assumptions C149_redrawn.
Print Assumptions C149_closest.
Print Assumptions C149_distance.
Print Assumptions C149_metric.
Print Assumptions C149_whole_turns.
Print Assumptions C149_plain.
Print Assumptions C149_unreadable_refuted.

(** The system of the minimum snap planner is never singular. *)
From Coq Require Import ZArith List Bool Arith Reals Lra Lia.
From Coquelicot Require Import Coquelicot.
From Verif Require Import Base.Scalar Base.RNum Base.Lists Base.Series Model.Errors Model.Vector Model.Matrix Model.Lu Model.Polynomial Model.Piecewise Model.MinimumSnap
  Spec.Matrix Spec.Polynomial Spec.Piecewise Spec.MinimumSnap Proofs.Matrix Proofs.SnapPiece Proofs.SnapSystem Proofs.MinimumSnap Proofs.SnapAccept Props.Lu Props.LuAccept Props.Piecewise.
Import ListNotations.
Local Open Scope R_scope.

Lemma mapping_not_singular h : h <> 0 -> ~ singular 8 (mget (endpoint_mapping h)).
Proof.
  intros H (x & (i & Hi & Nx) & K). apply Nx. transitivity (times 8 (unmapped h) (times 8 (mget (endpoint_mapping h)) x) i).
  - rewrite <- times_product. rewrite (times_ext 8 _ unit_matrix x x) by (try (intros k Hk; apply unmapped_left; auto); intros k _; reflexivity). symmetry. apply times_unit, Hi.
  - rewrite (times_ext 8 (unmapped h) (unmapped h) _ (fun _ => 0)) by (try exact K; reflexivity). unfold times. rewrite (bsum_ext 8 _ (fun _ => 0)) by (intros; ring). apply bsum_0.
Qed.
Lemma mapping_answer h : h <> 0 -> (exists inverse, endpoint_mapping_inverse h = Ok inverse) \/ endpoint_mapping_inverse h = Err LaIllConditioned.
Proof.
  intros H. unfold endpoint_mapping_inverse, mat_inverse, inverse_lu. destruct (C75_refuses 8 _ (mapping_shape h)) as (Si & _ & Only & NP).
  destruct (lu_decompose 8 (endpoint_mapping h)) as [f|e|]; [left; eexists; reflexivity| |destruct (NP eq_refl)]. right.
  destruct (Only e eq_refl) as [->| ->]; [destruct (mapping_not_singular h H (proj1 Si eq_refl))|reflexivity].
Qed.
Lemma assemble_answer d kind durations : (forall h, In h durations -> h <> 0) -> forall segment st,
  (exists st', assemble d kind segment durations st = Ok st') \/ assemble d kind segment durations st = Err (SnapLinalg LaIllConditioned) /\ exists h, In h durations /\ endpoint_mapping_inverse h = Err LaIllConditioned.
Proof.
  induction durations as [|h rest IH]; intros Hz segment st; [left; eexists; reflexivity|]. cbn [assemble].
  destruct (mapping_answer h (Hz h (or_introl eq_refl))) as [[inv ->]|E].
  - destruct (IH (fun x Hx => Hz x (or_intror Hx)) (S segment) (add_segment d kind segment (in_endpoint_terms inv h) st)) as [?|(? & x & ? & ?)]; [left; auto|right]. split; auto. exists x. split; [right|]; auto.
  - rewrite E. right. split; [reflexivity|]. exists h. split; [left; reflexivity|exact E].
Qed.
Lemma assemble_inverses d kind durations : (forall h, In h durations -> exists inverse, endpoint_mapping_inverse h = Ok inverse) -> forall segment (st : mat R * mat R), exists st', assemble d kind segment durations st = Ok st'.
Proof.
  induction durations as [|h rest IH]; intros Hz segment st; [eexists; reflexivity|]. cbn [assemble]. destruct (Hz h (or_introl eq_refl)) as [inv ->]. apply IH. intros x Hx. apply Hz. right. exact Hx.
Qed.
Lemma assemble_needs d kind durations : forall segment (st st' : mat R * mat R), assemble d kind segment durations st = Ok st' -> forall h, In h durations -> exists inverse, endpoint_mapping_inverse h = Ok inverse.
Proof.
  induction durations as [|h rest IH]; intros segment st st' E x Hx; [destruct Hx|]. cbn [assemble] in E. destruct (endpoint_mapping_inverse h) as [inv| |] eqn:I; try discriminate.
  destruct Hx as [<-|Hx]; [exists inv; exact I|]. apply (IH _ _ _ E x Hx).
Qed.

Section Singular.
  Variables (max_free d : nat) (start end_ : @boundary R) (waypoints : list (list R)) (durations : list R).
  Let n := List.length durations.
  Let f := (3 * (n - 1))%nat.
  Let kind := classify d start end_ waypoints n.
  Hypothesis Hroom : (f <= max_free)%nat.
  Hypothesis Hpos : forall k, (k < n)%nat -> 0 < nth k durations 0.
  Variables (reduced known : mat R).
  Hypothesis Hasm : assemble d kind 0 durations (mat_zeros max_free max_free, mat_zeros max_free d) = Ok (reduced, known).
  Let still := {| bd_velocity := [0]; bd_acceleration := [0]; bd_jerk := [0] |}.
  Let kind0 := classify 1 still still [] n.
Lemma is_free_same i w r : is_free i (kind w r) = is_free i (kind0 w r).
Proof. unfold kind, kind0, classify. destruct (Nat.eqb r 0), (Nat.eqb w 0), (Nat.eqb w n); reflexivity. Qed.
Lemma is_free_beyond i w r : (f <= i)%nat -> (w <= n)%nat -> (r < 4)%nat -> is_free i (kind w r) = 0.
Proof.
    intros Hi Hw Hr. unfold kind, classify. destruct (Nat.eqb_spec r 0), (Nat.eqb_spec w 0), (Nat.eqb_spec w n); cbn [is_free]; auto.
    unfold is_free. destruct (Nat.eqb_spec i (3 * (w - 1) + (r - 1))); [unfold f in *; lia|reflexivity].
Qed.
Lemma reduced_beyond i j : (i < max_free)%nat -> (j < max_free)%nat -> (f <= i)%nat -> mget reduced i j = 0.
Proof.
    intros Hi Hj Hf. rewrite (reduced_entry max_free d start end_ waypoints durations Hroom reduced known Hasm) by auto. fold n. fold kind.
    rewrite (bsum_ext _ _ (fun _ => 0)); [apply bsum_0|]. intros s Hs. rewrite (bsum_ext 8 _ (fun _ => 0)); [apply bsum_0|]. intros lr Hlr. rewrite (bsum_ext 8 _ (fun _ => 0)); [apply bsum_0|]. intros lc Hlc.
    unfold local_kind at 1. rewrite is_free_beyond; [ring|exact Hf| |apply Nat.mod_upper_bound; lia]. pose proof (Nat.div_lt_upper_bound lr 4 2 ltac:(lia) ltac:(lia)). unfold n. lia.
Qed.
Lemma system_beyond i j : (f <= i < max_free)%nat -> (j < max_free)%nat -> mget (snap_system max_free f reduced) i j = unit_matrix i j.
Proof.
    intros Hi Hj. set (m0 := mat_scale max_free max_free (mat_add reduced (transpose max_free max_free reduced)) half).
    assert (G : forall k, (f + k <= max_free)%nat -> let m := fold_left (fun system row => mset system row row one) (seq f k) m0 in
      shape max_free max_free m /\ forall i j, (i < max_free)%nat -> (j < max_free)%nat -> mget m i j = if (Nat.eqb i j && Nat.leb f i && Nat.ltb i (f + k))%bool then 1 else mget m0 i j).
    { induction k as [|k IH]; intros Hk m.
      - split; [apply shape_mat_fn|]. intros a b Ha Hb. rewrite Nat.add_0_r. destruct (Nat.leb_spec f a), (Nat.ltb_spec a f); try lia; rewrite ?andb_false_r; reflexivity.
      - unfold m. rewrite seq_S, fold_left_app. cbn [fold_left]. destruct (IH ltac:(lia)) as [S1 S2]. split; [apply shape_mset, S1|]. intros a b Ha Hb. rewrite (mget_mset max_free max_free) by (auto; lia). rewrite S2 by auto.
        destruct (Nat.eqb_spec a (f + k)), (Nat.eqb_spec b (f + k)), (Nat.eqb_spec a b), (Nat.leb_spec f a), (Nat.ltb_spec a (f + k)), (Nat.ltb_spec a (f + S k)); cbn [andb]; try lia; reflexivity. }
    unfold snap_system, range. fold m0. rewrite (proj2 (G (max_free - f)%nat ltac:(lia))) by (auto; lia). unfold unit_matrix. destruct (Nat.leb_spec f i); [|lia]. destruct (Nat.ltb_spec i (f + (max_free - f))); [|lia]. rewrite !andb_true_r.
    destruct (Nat.eqb i j); [reflexivity|]. unfold m0, mat_scale. rewrite mget_mat_fn by (auto; lia). unfold mat_add. destruct (reduced_shape max_free d start end_ waypoints durations Hroom reduced known Hasm) as [Hs _].
    rewrite (mget_map2 _ max_free max_free) by (auto; try apply shape_mat_fn; lia). rewrite mget_transpose by (auto; lia).
    rewrite (reduced_symmetric max_free d start end_ waypoints durations Hroom reduced known Hasm j i) by (auto; lia). rewrite reduced_beyond by (auto; lia). rnum. ring.
Qed.
Lemma system_regular : (1 <= n)%nat -> ~ singular max_free (mget (snap_system max_free f reduced)).
Proof.
    intros Hn (x & (i0 & Hi0 & Nx) & K).
    assert (Far : forall i, (f <= i < max_free)%nat -> x i = 0).
    { intros i Hi. rewrite <- (K i) by lia. rewrite <- (times_unit max_free x i) by lia. apply times_ext; [|intros k _; reflexivity]. intros k Hk. symmetry. apply system_beyond; auto. }
    destruct (assemble_inverses 1 kind0 durations (assemble_needs d kind durations _ _ _ Hasm) 0 (mat_zeros max_free max_free, mat_zeros max_free 1)) as [[reduced0 known0] A0].
    assert (Same : forall i j, (i < max_free)%nat -> (j < max_free)%nat -> mget reduced0 i j = mget reduced i j).
    { intros i j Hi Hj. rewrite (reduced_entry max_free d start end_ waypoints durations Hroom reduced known Hasm), (reduced_entry max_free 1 still still [] durations Hroom reduced0 known0 A0) by auto.
      apply bsum_ext. intros s Hs. apply bsum_ext. intros lr Hlr. apply bsum_ext. intros lc Hlc. fold n. fold kind. fold kind0. unfold local_kind. rewrite !is_free_same. reflexivity. }
    set (X := fun j (a : nat) => x j). set (V := fun w r => chosen X (kind0 w r) 0%nat).
    assert (Rest : forall w r, kind0 w r = Free (3 * (w - 1) + (r - 1)) \/ exists v, kind0 w r = Fixed v /\ vget v 0 = 0).
    { intros w r. unfold kind0, classify. destruct (Nat.eqb r 0); [right; eexists; split; [reflexivity|destruct w; reflexivity]|]. destruct (Nat.eqb w 0); [right; eexists; split; [reflexivity|destruct r as [|[|[|r]]]; reflexivity]|].
      destruct (Nat.eqb w n); [right; eexists; split; [reflexivity|destruct r as [|[|[|r]]]; reflexivity]|left; reflexivity]. }
    assert (Inv : forall k, (k < n)%nat -> exists inverse, endpoint_mapping_inverse (nth k durations 0) = Ok inverse) by (intros k Hk; apply (assemble_needs d kind durations _ _ _ Hasm), nth_In, Hk).
    set (c := fun s j => if Nat.ltb j 8 then times 8 (unmapped (nth s durations 0)) (fun lc => chosen X (local_kind kind0 s lc) 0%nat) j else 0).
    assert (Sh : forall k, (k < n)%nat -> short (c k)) by (intros k Hk j Hj; unfold c; destruct (Nat.ltb_spec j 8); [lia|reflexivity]).
    assert (Edge : forall s i, (s < n)%nat -> (i < 8)%nat -> edge (c s) (nth s durations 0) i = chosen X (local_kind kind0 s i) 0%nat).
    { intros s i Hs Hi. assert (Hz : nth s durations 0 <> 0) by (apply Rgt_not_eq, Hpos, Hs). rewrite <- mapping_rows by auto.
      rewrite (times_ext 8 _ (mget (endpoint_mapping (nth s durations 0))) (c s) (times 8 (unmapped (nth s durations 0)) (fun lc => chosen X (local_kind kind0 s lc) 0%nat))).
      - rewrite <- times_product. rewrite (times_ext 8 _ unit_matrix _ (fun lc => chosen X (local_kind kind0 s lc) 0%nat)) by (try (intros k Hk; apply unmapped_right; auto); intros k _; reflexivity). apply (times_unit 8 (fun lc => chosen X (local_kind kind0 s lc) 0%nat)), Hi.
      - reflexivity.
      - intros k Hk. unfold c. destruct (Nat.ltb_spec k 8); [reflexivity|lia]. }
    assert (Ends : forall k r, (k < n)%nat -> (r < 4)%nat -> piece_slope (c k) 0 (nth k durations 0) r 0 = V k r /\ piece_slope (c k) 0 (nth k durations 0) r (nth k durations 0) = V (S k) r).
    { intros k r Hk Hr. pose proof (Edge k r Hk ltac:(lia)) as E1. pose proof (Edge k (4 + r)%nat Hk ltac:(lia)) as E2. unfold edge, local_kind in E1, E2.
      rewrite (proj2 (Nat.ltb_lt r 4)) in E1 by lia. rewrite (proj2 (Nat.ltb_ge (4 + r) 4)) in E2 by lia. rewrite Nat.mod_small, Nat.div_small, Nat.add_0_r in E1 by lia.
      replace ((4 + r) / 4)%nat with 1%nat in E2 by (apply (Nat.div_unique (4 + r) 4 1 r); lia). replace ((4 + r) mod 4)%nat with r in E2 by (apply (Nat.mod_unique (4 + r) 4 1 r); lia). rewrite Nat.add_1_r in E2.
      split; [exact E1|exact E2]. }
    assert (Dr : forall s lr, (s < n)%nat -> (lr < 8)%nat -> drawn 1 still still [] durations X 0 s lr = pull (c s) (nth s durations 0) lr).
    { intros s lr Hs Hlr. unfold drawn, terms_of. fold n. fold kind0. destruct (Inv s Hs) as [inv I]. rewrite I. rewrite <- (terms_pull inv (nth s durations 0) (Rgt_not_eq _ _ (Hpos s Hs)) I (c s) lr (Sh s Hs) Hlr).
      apply times_ext; [reflexivity|]. intros i Hi. symmetry. apply Edge; auto. }
    assert (Known0 : forall w r, (1 <= w < n)%nat -> (1 <= r <= 3)%nat -> mget known0 (3 * (w - 1) + (r - 1)) 0 = 0).
    { intros w r Hw Hr. pose proof (excess_joint max_free 1 still still [] durations Hroom reduced0 known0 A0 (fun _ _ => 0) w r 0%nat Hw Hr ltac:(lia)) as E. unfold excess in E. cbn [fst snd] in E.
      assert (D0 : forall s lr, drawn 1 still still [] durations (fun _ _ => 0) 0 s lr = 0).
      { intros s lr. unfold drawn, times. rewrite (bsum_ext 8 _ (fun _ => 0)); [apply bsum_0|]. intros k Hk. unfold local_kind. fold n. fold kind0. destruct (Rest (s + k / 4)%nat (k mod 4)%nat) as [-> |(v & -> & Z)]; cbn [chosen]; rewrite ?Z; ring. }
      rewrite !D0 in E. rewrite (bsum_ext max_free _ (fun _ => 0)) in E by (intros; ring). rewrite bsum_0 in E. lra. }
    assert (Pull : forall w r, (1 <= w < n)%nat -> (1 <= r <= 3)%nat -> pull (c (w - 1)%nat) (nth (w - 1) durations 0) (4 + r) + pull (c w) (nth w durations 0) r = 0).
    { intros w r Hw Hr. rewrite <- !Dr by lia. rewrite <- (excess_joint max_free 1 still still [] durations Hroom reduced0 known0 A0 X w r 0%nat Hw Hr ltac:(lia)). unfold excess. cbn [fst snd].
      rewrite (Known0 w r Hw Hr). pose proof (K (3 * (w - 1) + (r - 1))%nat ltac:(unfold f in *; lia)) as Q. unfold times in Q.
      rewrite (bsum_ext max_free _ (fun k => mget (snap_system max_free f reduced) (3 * (w - 1) + (r - 1)) k * x k)); [lra|]. intros j Hj. unfold X. rewrite Same by (auto; unfold f in *; lia).
      unfold f. rewrite (system_entry max_free d start end_ waypoints durations Hroom reduced known Hasm) by (auto; fold n; lia). reflexivity. }
    set (Z := fun (_ _ : nat) (_ : R) => 0).
    assert (Zpath : piece_path durations Z).
    { intros k Hk t Ht. split; [intros r Hr; apply (is_derive_const 0 t)|apply continuous_const]. }
    assert (V0 : forall w, V w 0%nat = 0). { intros w. unfold V, kind0, classify. cbn [Nat.eqb chosen]. destruct w; reflexivity. }
    assert (Vs : forall r, V 0%nat r = 0). { intros r. unfold V, kind0, classify. destruct (Nat.eqb r 0); [reflexivity|]. cbn [Nat.eqb chosen]. destruct r as [|[|[|r]]]; reflexivity. }
    assert (Ve : forall r, V n r = 0). { intros r. unfold V, kind0, classify. destruct (Nat.eqb_spec r 0); [destruct n; reflexivity|]. destruct (Nat.eqb n 0); [cbn [chosen]; destruct r as [|[|[|r]]]; reflexivity|]. rewrite Nat.eqb_refl. cbn [chosen]. destruct r as [|[|[|r]]]; reflexivity. }
    assert (Zpass : passes durations (fun w => V w 0%nat) (V 0%nat) (V n) Z).
    { split; [|split]; unfold Z; intros; rewrite ?V0, ?Vs, ?Ve; auto. }
    assert (Zsnap : snap durations Z <= snap durations (P durations c)).
    { assert (S0 : snap durations Z = 0). { unfold snap, Z. rewrite (bsum_ext _ _ (fun _ => 0)); [apply bsum_0|]. intros k Hk. rewrite (RInt_ext _ (fun _ => 0)) by (intros y _; match goal with |- @eq _ ?a ?b => change (@eq R a b) end; ring). rewrite RInt_const. unfold scal; cbn. unfold mult; cbn. ring. }
      rewrite S0. unfold snap. apply bsum_nonneg. intros k Hk. apply RInt_ge_0; [apply (from_le durations Hpos k Hk)| |intros; apply pow2_ge_0].
      apply (ex_RInt_continuous (fun t => P durations c k 4 t ^ 2)). intros t _. apply (continuous_ext (fun t => P durations c k 4 t * P durations c k 4 t)); [intros y; match goal with |- @eq _ ?a ?b => change (@eq R a b) end; ring|]. apply (continuous_mult (P durations c k 4%nat) (P durations c k 4%nat)); apply (P_continuous durations c Hpos Sh k 4 t Hk). }
    pose proof (snap_only durations c V Hn Hpos Sh Ends Pull Z Zpath Zpass Zsnap) as Same0.
    apply Nx. destruct (Nat.lt_ge_cases i0 f) as [Hf|Hf]; [|apply Far; lia].
    set (w := S (i0 / 3)). set (r := S (i0 mod 3)). pose proof (Nat.div_mod i0 3 ltac:(lia)) as DM. pose proof (Nat.mod_upper_bound i0 3 ltac:(lia)) as MU.
    assert (Hw : (1 <= w < n)%nat) by (unfold w, f in *; lia). assert (Hr : (1 <= r <= 3)%nat) by (unfold r; lia).
    pose proof (Same0 w r (piece_start durations w) ltac:(lia) ltac:(lia) (conj (Rle_refl _) (from_le durations Hpos w ltac:(lia)))) as Q.
    rewrite (P_start durations c w r) in Q. rewrite (proj1 (Ends w r ltac:(lia) ltac:(lia))) in Q. unfold Z, V in Q. unfold kind0, n in Q. rewrite (kind_free max_free 1 still still [] durations Hroom w r Hw ltac:(lia)) in Q. cbn [chosen] in Q. unfold X in Q.
    replace (3 * (w - 1) + (r - 1))%nat with i0 in Q by (unfold w, r; lia). symmetry. exact Q.
Qed.
End Singular.

(** crates/multicalc/src/utils/summation.rs *)
From Coq Require Import ZArith List Bool.
From Verif Require Import Base.Scalar.
From Verif Require Export Base.Lists.
Import ListNotations.

(** summation.rs:18-19 *)
Definition BLOCK : nat := 128.
Definition LEVELS : nat := 32.

Section Summation.
  Context {T : Type} {NT : Num T}.
  Local Open Scope num_scope.

  (** summation.rs:24-29 *)
  Record PairwiseSum := mkPairwise {
    tree : list T; occupied : Z; block_sum : T; block_count : nat }.

  (** summation.rs:33-41 *)
  Definition pairwise_new : PairwiseSum := mkPairwise (repeat zero LEVELS) 0%Z zero O.

  (** summation.rs:60-64.  [level & (LEVELS - 1)] is [level] below LEVELS, which the loop's own test
      ensures, so the mask is left out.  [steps] is [LEVELS - level]. *)
  Fixpoint carry (steps level : nat) (tr : list T) (occ : Z) (value : T) : nat * Z * T :=
    match steps with
    | O => (level, occ, value)
    | S steps =>
        if Z.testbit occ (Z.of_nat level) then
          carry steps (S level) tr (Z.clearbit occ (Z.of_nat level)) (nth level tr zero + value)
        else (level, occ, value)
    end.

  (** summation.rs:57-71 *)
  Definition push (a : PairwiseSum) (value : T) : PairwiseSum :=
    let '(level, occ, value) := carry LEVELS 0 (tree a) (occupied a) value in
    let level := if Nat.eqb level LEVELS then Nat.pred LEVELS else level in
    mkPairwise (set_nth (tree a) level value) (Z.setbit occ (Z.of_nat level)) (block_sum a)
               (block_count a).

  (** summation.rs:44-54 *)
  Definition pairwise_add (a : PairwiseSum) (value : T) : PairwiseSum :=
    let bs := block_sum a + value in
    let bc := S (block_count a) in
    if Nat.eqb bc BLOCK then
      let p := push (mkPairwise (tree a) (occupied a) bs bc) bs in
      mkPairwise (tree p) (occupied p) zero O
    else mkPairwise (tree a) (occupied a) bs bc.

  (** summation.rs:80: the number of bits of [occupied] up to its highest set bit *)
  Definition bit_length (x : Z) : nat := if Z.eqb x 0 then O else S (Z.to_nat (Z.log2 x)).

  (** summation.rs:75-88 *)
  Definition pairwise_total (a : PairwiseSum) : T :=
    fold_left
      (fun sum level => if Z.testbit (occupied a) (Z.of_nat level) then sum + nth level (tree a) zero else sum)
      (seq 0 (bit_length (occupied a))) (block_sum a).

  Definition pairwise_run (l : list T) : PairwiseSum := fold_left pairwise_add l pairwise_new.
  (** The observable: the total after adding every term of [l] in order. *)
  Definition pairwise_of (l : list T) : T := pairwise_total (pairwise_run l).

  (** summation.rs:108-136 *)
  Record KahanSum := mkKahan { ksum : T; compensation : T }.
  Definition kahan_new : KahanSum := mkKahan zero zero.
  Definition kahan_add (a : KahanSum) (value : T) : KahanSum :=
    let y := value - compensation a in
    let next := ksum a + y in
    mkKahan next ((next - ksum a) - y).
  Definition kahan_total (a : KahanSum) : T := ksum a.
  Definition kahan_of (l : list T) : T := kahan_total (fold_left kahan_add l kahan_new).
End Summation.

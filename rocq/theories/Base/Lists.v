(** Arrays as lists: writing one cell, building from a function, filling in order. *)
From Coq Require Import List Lia Arith.
Import ListNotations.

(** [l[i] = v]; out of range leaves the list alone (the code would panic; the proofs show the index
    is in range where the model uses it). *)
Fixpoint set_nth {A} (l : list A) (i : nat) (v : A) : list A :=
  match l, i with
  | [], _ => []
  | _ :: t, O => v :: t
  | h :: t, S i => h :: set_nth t i v
  end.

(** core::array::from_fn *)
Definition from_fn {A} (n : nat) (f : nat -> A) : list A := map f (seq 0 n).

(** [for k in 1..n { out[k] = step(&out, k) }] *)
Definition fill {A} (n : nat) (step : list A -> nat -> A) (out : list A) : list A :=
  fold_left (fun out k => set_nth out k (step out k)) (seq 1 (n - 1)) out.

Lemma set_nth_length {A} (l : list A) i v : length (set_nth l i v) = length l.
Proof. revert i; induction l; intros [|i]; cbn; auto. Qed.
Lemma nth_set_nth_eq {A} (l : list A) i v d : i < length l -> nth i (set_nth l i v) d = v.
Proof. revert i; induction l; intros [|i] H; cbn in *; try lia; auto. apply IHl; lia. Qed.
Lemma nth_set_nth_neq {A} (l : list A) i j v d : i <> j -> nth j (set_nth l i v) d = nth j l d.
Proof. revert i j; induction l; intros [|i] [|j] H; cbn; auto; try lia. Qed.

Lemma from_fn_length {A} n (f : nat -> A) : length (from_fn n f) = n.
Proof. unfold from_fn. rewrite map_length, seq_length. reflexivity. Qed.
Lemma nth_from_fn {A} n (f : nat -> A) k d : k < n -> nth k (from_fn n f) d = f k.
Proof.
  intros H. unfold from_fn. rewrite nth_indep with (d' := f 0) by (rewrite map_length, seq_length; lia).
  rewrite map_nth, seq_nth by lia. f_equal. 
Qed.

Section Fill.
  Context {A : Type} (d : A) (step : list A -> nat -> A).
  (** From index [s] on, [step] reads only the cells before the one it writes. *)
  Definition causal (s : nat) := forall k l l', s <= k -> length l = length l' -> k < length l ->
    (forall i, i < k -> nth i l d = nth i l' d) -> step l k = step l' k.

  Lemma fill_aux n : forall s out, s + n <= length out -> causal s ->
    let r := fold_left (fun out k => set_nth out k (step out k)) (seq s n) out in
    length r = length out /\ (forall i, i < s -> nth i r d = nth i out d) /\
    (forall k, s <= k < s + n -> nth k r d = step r k).
  Proof.
    induction n as [|n IH]; intros s out Hl C; cbn.
    - repeat split; auto. intros; lia.
    - destruct (IH (S s) (set_nth out s (step out s)) ltac:(rewrite set_nth_length; lia) ltac:(intros ? ? ? ?; apply C; lia)) as (L & P & Q).
      rewrite set_nth_length in L. set (r := fold_left _ _ _) in *.
      assert (P0 : forall i, i < s -> nth i r d = nth i out d).
      { intros i Hi. rewrite P by lia. apply nth_set_nth_neq. lia. }
      repeat split; auto. intros k Hk. destruct (Nat.eq_dec k s) as [->|Ne]; [|apply Q; lia].
      rewrite P by lia. rewrite nth_set_nth_eq by lia. apply C; [lia|congruence|lia|].
      intros i Hi. symmetry. apply P0; lia.
  Qed.

  Lemma fill_length n out : length out = n -> causal 1 -> length (fill n step out) = n.
  Proof. intros L C. unfold fill. destruct n; [cbn; auto|]. destruct (fill_aux (S n - 1) 1 out ltac:(lia) C) as (H & _). lia. Qed.
  Lemma fill_0 n out : length out = n -> causal 1 -> nth 0 (fill n step out) d = nth 0 out d.
  Proof.
    intros L C. unfold fill. destruct n; [destruct out; [reflexivity|discriminate]|].
    destruct (fill_aux (S n - 1) 1 out ltac:(lia) C) as (_ & H & _). apply H; lia.
  Qed.
  Lemma fill_nth n out k : length out = n -> causal 1 -> 1 <= k < n ->
    nth k (fill n step out) d = step (fill n step out) k.
  Proof.
    intros L C Hk. unfold fill. destruct (fill_aux (n - 1) 1 out ltac:(lia) C) as (_ & _ & H). apply H; lia.
  Qed.
End Fill.

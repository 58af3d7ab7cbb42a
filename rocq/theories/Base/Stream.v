(** Running a state machine over a list of inputs. *)
From Coq Require Import List.
Import ListNotations.

Section Run.
  Context {S I O : Type} (step : S -> I -> S * O).

  (** state after the inputs, and the outputs in order *)
  Fixpoint run (s : S) (l : list I) : S * list O :=
    match l with
    | [] => (s, [])
    | i :: l => let (s1, o) := step s i in let (s2, os) := run s1 l in (s2, o :: os)
    end.

  Definition state_after (s : S) (l : list I) : S := fst (run s l).
  Definition outputs (s : S) (l : list I) : list O := snd (run s l).

  Lemma state_after_nil s : state_after s [] = s.
  Proof. reflexivity. Qed.

  Lemma state_after_cons s i l : state_after s (i :: l) = state_after (fst (step s i)) l.
  Proof. unfold state_after; cbn. destruct (step s i) as [s1 o]. destruct (run s1 l) eqn:E. cbn. rewrite E. reflexivity. Qed.

  Lemma outputs_cons s i l : outputs s (i :: l) = snd (step s i) :: outputs (fst (step s i)) l.
  Proof. unfold outputs; cbn. destruct (step s i) as [s1 o]. destruct (run s1 l) eqn:E. cbn. rewrite E. reflexivity. Qed.

  Lemma state_after_app l1 : forall s l2, state_after s (l1 ++ l2) = state_after (state_after s l1) l2.
  Proof. induction l1 as [|i l1 IH]; intros; [reflexivity|]. cbn [app]. rewrite !state_after_cons. apply IH. Qed.

  Lemma outputs_app l1 : forall s l2, outputs s (l1 ++ l2) = outputs s l1 ++ outputs (state_after s l1) l2.
  Proof.
    induction l1 as [|i l1 IH]; intros; [reflexivity|].
    cbn [app]. rewrite !outputs_cons, state_after_cons, IH. reflexivity.
  Qed.

  Lemma outputs_length l : forall s, length (outputs s l) = length l.
  Proof. induction l as [|i l IH]; intros; [reflexivity|]. rewrite outputs_cons. cbn. rewrite IH. reflexivity. Qed.

  Lemma outputs_snoc l s i : outputs s (l ++ [i]) = outputs s l ++ [snd (step (state_after s l) i)].
  Proof. rewrite outputs_app, outputs_cons. reflexivity. Qed.

  Lemma state_after_snoc l s i : state_after s (l ++ [i]) = fst (step (state_after s l) i).
  Proof. rewrite state_after_app, state_after_cons. reflexivity. Qed.
End Run.

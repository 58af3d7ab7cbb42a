(** Histories of a stateful block: samples fed in and calls to [reset]. *)
From Coq Require Import List.
Import ListNotations.

Inductive event (T : Type) := Sample (x : T) | Reset.
Arguments Sample {T}. Arguments Reset {T}.

(** the state a history leaves behind *)
Definition replay {S T O : Type} (filter : S -> T -> S * O) (reset : S -> S) (s : S) (h : list (event T)) : S :=
  fold_left (fun s e => match e with Sample x => fst (filter s x) | Reset => reset s end) h s.

(** the samples since the last reset, oldest first *)
Definition since_reset {T : Type} (h : list (event T)) : list T :=
  fold_left (fun acc e => match e with Sample x => acc ++ [x] | Reset => [] end) h [].

Lemma replay_snoc {S T O} (f : S -> T -> S * O) r s h e :
  replay f r s (h ++ [e]) = match e with Sample x => fst (f (replay f r s h) x) | Reset => r (replay f r s h) end.
Proof. unfold replay. rewrite fold_left_app. reflexivity. Qed.

Lemma since_reset_snoc {T} (h : list (event T)) e :
  since_reset (h ++ [e]) = match e with Sample x => since_reset h ++ [x] | Reset => [] end.
Proof. unfold since_reset. rewrite fold_left_app. reflexivity. Qed.

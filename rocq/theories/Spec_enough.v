(** How sure a Monte Carlo estimate is, for C164. *)
From Coq Require Import Reals.
From Verif Require Import Spec_mean.
Open Scope R_scope.

(** The probability of [A], for N independent uniform random numbers, is at
    most b: some function that is nowhere negative, and at least 1 on [A], has a
    mean of at most b.  (It bounds the indicator of A.) *)
Definition rare (N : nat) (A : (nat -> R) -> Prop) (b : R) : Prop :=
  exists Z z, (forall t, 0 <= Z t) /\ (forall t, A t -> 1 <= Z t) /\ is_mean N Z z /\ z <= b.

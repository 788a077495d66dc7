(** Specification vocabulary for weights grouped by event number. *)
From Coq Require Import Reals List Bool Arith.
From Verif Require Import Spec.
Import ListNotations.
Open Scope R_scope.

(** Total weight of the trajectories whose event number satisfies [P]. *)
Definition weight_where (P : nat -> bool) (events : list nat) (weights : list R) : R :=
  total (map snd (filter (fun p => P (fst p)) (combine events weights))).

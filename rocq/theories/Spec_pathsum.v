(** Light sorted by the length of its path, for C178. *)
From Coq Require Import Reals List.
Import ListNotations.
Open Scope R_scope.

(** A list of pairs (amount of light, length of its path): all amounts and
    lengths are non-negative; the light there is without absorption; and what is
    left of it when each part is weakened by exp (- a * length). *)
Definition parts (l : list (R * R)) : Prop := Forall (fun p => 0 <= fst p /\ 0 <= snd p) l.
Definition amount (l : list (R * R)) : R := fold_right Rplus 0 (map fst l).
Definition left_after (a : R) (l : list (R * R)) : R := fold_right Rplus 0 (map (fun p => fst p * exp (- (a * snd p))) l).
(** Every length is that of the first k steps of one of these trajectories. *)
Definition lengths_of (steps : list (list R)) (l : list (R * R)) : Prop :=
  Forall (fun p => exists s k, In s steps /\ snd p = fold_right Rplus 0 (firstn k s)) l.

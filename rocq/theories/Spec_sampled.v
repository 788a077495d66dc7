(** Draws of a whole calculation, for C167. *)
From Coq Require Import Reals List.
From Verif Require Import Num M_montecarlo M_simulation M_scat Spec_estimate.
Open Scope R_scope.

(** The draws [D] with every scattering angle drawn as sample_angles draws it
    from the phase function [p]: scattering k of trajectory i with the random
    numbers up k i (azimuth) and ut k i (polar angle). *)
Definition sampled_draws (p : list R) (lo : R) (up ut : nat -> nat -> R) (D : draws) : draws :=
  mk_draws (d_l0 D) (d_l1 D) (d_l2 D) (d_l3 D)
    (fun i k => match sample_angle_1d p lo (up k i) (ut k i) with Ok a => a | Err _ => (0, 0) end)
    (d_u D) (d_rang D) (d_rstep D).

(** The draws [D] with the [e] steps after the first one drawn from uniform
    numbers t 0, t 1, ...: number 3 k + 1 of each trajectory's own block of 3 e
    numbers for step k + 1; and the numbers of scattering k, 3 k + 2 (azimuth)
    and 3 k (polar angle). *)
Definition with_steps (e : nat) (t : nat -> R) (D : draws) : draws :=
  mk_draws (d_l0 D) (d_l1 D) (d_l2 D) (d_l3 D) (d_ang D)
    (fun n i => match n with
                | O => d_u D n i
                | S k => if Nat.ltb k e then frac_part (numbers_of (3 * e) t i (3 * k + 1)%nat) else d_u D n i
                end)
    (d_rang D) (d_rstep D).
Definition azimuth_number (e : nat) (t : nat -> R) (k i : nat) : R := numbers_of (3 * e) t i (3 * k + 2)%nat.
Definition polar_number (e : nat) (t : nat -> R) (k i : nat) : R := numbers_of (3 * e) t i (3 * k)%nat.

(** Random walks of light, for C161. *)
From Coq Require Import Reals List.
From Verif Require Import Num Spec Spec_scat M_scat.
Import ListNotations.
Open Scope R_scope.

(** The angles of scattering number [i] of one trajectory, as sample_angles
    draws them from the phase function [p] (polar angles from [lo] to pi) with
    random numbers t 0, t 1, ...: two per scattering. *)
Definition drawn_angles (p : list R) (lo : R) (t : nat -> R) (i : nat) : R * R :=
  match sample_angle_1d p lo (t (S (2 * i))) (t (2 * i)%nat) with Ok a => a | Err _ => (0, 0) end.

(** The weight of grid angle [i] (phase function times solid angle) and the mean
    of [f] over the polar angles with these weights. *)
Definition angle_weight (p : list R) (lo : R) (i : nat) : R := nth i p 0 * sin (grid lo PI (length p) i).
Definition average (p : list R) (lo : R) (f : R -> R) : R :=
  total (map (fun i => share (angle_weight p lo) (length p) i * f (grid lo PI (length p) i)) (seq 0 (length p))).
(** The asymmetry parameter (mean cosine), and the mean of the second Legendre
    polynomial of the cosine. *)
Definition asymmetry (p : list R) (lo : R) : R := average p lo cos.
Definition second_moment (p : list R) (lo : R) : R := average p lo (fun th => (3 * cos th ^ 2 - 1) / 2).

(** The mean product of the z components of directions [i] and [j] in a random
    walk with moments [g] and [q] that starts along +z. *)
Definition z_correlation (g q : R) (i j : nat) : R :=
  g ^ (Nat.max i j - Nat.min i j) * ((1 + 2 * q ^ Nat.min i j) / 3).

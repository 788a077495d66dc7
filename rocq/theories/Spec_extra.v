(** Specification vocabulary of C120-C122. *)
From Verif Require Import Num Spec.
Open Scope R_scope.

(** Circular convolution: entry [i] sums all products s_j * g_k with
    j + k = i modulo n. *)
Definition circular (s g : list R) (i : nat) : R :=
  let n := length s in
  total (map (fun j => nth j s 0 * nth ((i + n - j) mod n) g 0) (seq 0 n)).

(** The impulse of length [n]. *)
Definition impulse (n : nat) : list R := map (fun i => match i with O => 1 | _ => 0 end) (seq 0 n).

(** [i] is the first of the places nearest to [p]. *)
Definition gap (a b : vec) : R :=
  (vx a - vx b) ^ 2 + (vy a - vy b) ^ 2 + (vz a - vz b) ^ 2.
Definition first_nearest (p : vec) (places : list vec) (i : nat) : Prop :=
  (i < length places)%nat
  /\ (forall k, (k < length places)%nat -> gap p (nth i places vzero) <= gap p (nth k places vzero))
  /\ (forall k, (k < i)%nat -> gap p (nth i places vzero) < gap p (nth k places vzero)).

(** The unit vector of a pair of polar angles. *)
Definition toward (theta phi : R) : vec := (sin theta * cos phi, sin theta * sin phi, cos theta).

(** A curve that goes through the given points. *)
Definition through (f : R -> R) (pts : list (R * R)) : Prop := forall r v, In (r, v) pts -> f r = v.

(** The radial Fourier transform in three dimensions and its inverse, as sums
    over a grid of [n] points with spacing [h]: f(k) = 4 pi int r^2 f(r)
    sin(kr)/(kr) dr, f(r) = 1/(2 pi^2) int k^2 f(k) sin(kr)/(kr) dk. *)
Definition sinc (x : R) : R := sin x / x.
Definition grid_sum (n : nat) (h : R) (f : R -> R) : R := total (map (fun i => f (INR i * h) * h) (seq 1 n)).
Definition transform3 (n : nat) (h : R) (f : R -> R) (k : R) : R :=
  grid_sum n h (fun r => 4 * PI * r ^ 2 * f r * sinc (k * r)).
Definition inverse3 (n : nat) (h : R) (f : R -> R) (r : R) : R :=
  grid_sum n h (fun k => k ^ 2 * f k * sinc (k * r)) / (2 * PI ^ 2).
(** The Ornstein-Zernike relation for number density [rho]. *)
Definition ornstein_zernike (rho c : R) : R := c / (1 - rho * c).

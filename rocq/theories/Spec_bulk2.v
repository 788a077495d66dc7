(** Vocabulary of C124: the weighted kernel estimate behind the phase function
    of a sphere in a bulk film. *)
From Verif Require Export Spec_bulk.
Open Scope R_scope.

(** [scattered_out] as a test. *)
Definition is_scattered (ri ti : nat -> nat) (i : nat) : bool :=
  orb (negb (Nat.eqb (ri i) 0)) (Nat.leb 2 (ti i)).
(** The trajectories that were scattered out of the sphere, in order. *)
Definition scattered_ones (n : nat) (ri ti : nat -> nat) : list nat := filter (is_scattered ri ti) (seq 0 n).

(** The normal density of width [h] at [u]. *)
Definition normal_density (h u : R) : R := exp (- (u / h) ^ 2 / 2) / (h * sqrt (2 * PI)).
(** The kernel estimate at [u] on [0, 1] from the values [nu i] with weights
    [w i], each value mirrored at both ends 0 and 1. *)
Definition kernel_estimate (h : R) (n : nat) (ri ti : nat -> nat) (nu w : nat -> R) (u : R) : R :=
  over n (fun i => if is_scattered ri ti i
    then w i * (normal_density h (u - - nu i) + normal_density h (u - nu i) + normal_density h (u - (2 - nu i)))
    else 0).
(** The values with their mirror images at 0 and at 1; weights likewise. *)
Definition with_images (l : list R) : list R := map (fun x => - x) l ++ l ++ map (fun x => 2 - x) l.
Definition thrice (l : list R) : list R := l ++ l ++ l.

(** The phase function: the estimate at the 200 angles [t] from 0.01 to pi
    (at u = (1 + cos t) / 2), divided by its sum over the angles. *)
Definition tabulated (f : R -> R) : list num :=
  let angles := linspace (1 / 100) PI 200 in
  let at_angle t := f ((1 + cos t) / 2) in
  map (fun t => Some (at_angle t / total (map at_angle angles))) angles.

(** calc_scat_bulk on [n] trajectories given by functions. *)
Definition bulk_call (bw : list R -> list R -> R) (n : nat) (rw tw : nat -> R) (ri ti : nat -> nat)
  (nr nt : nat -> vec) (phi d k lam : R) (kz : option (nat -> list R)) :=
  calc_scat_bulk bw (map rw (seq 0 n)) (map tw (seq 0 n)) (map ri (seq 0 n)) (map ti (seq 0 n))
    (map nr (seq 0 n)) (map nt (seq 0 n)) phi d k lam (option_map (fun f => map f (seq 0 n)) kz).

(** Vocabulary for the single-scattering properties.  Nothing here refers to
    the code. *)
From Coq Require Import Reals List.
Import ListNotations.
Open Scope R_scope.

(** The trapezoid rule for a function on a grid of points. *)
Fixpoint trap_int (f : R -> R) (grid : list R) : R :=
  match grid with
  | a :: ((b :: _) as t) => (b - a) * ((f a + f b) / 2) + trap_int f t
  | _ => 0
  end.

(** The trapezoid rule for tabulated (point, value) pairs. *)
Fixpoint trap_pts (l : list (R * R)) : R :=
  match l with
  | p :: ((q :: _) as t) => (fst q - fst p) * ((snd p + snd q) / 2) + trap_pts t
  | _ => 0
  end.

(** The points do not decrease. *)
Definition ascending (g : list R) : Prop :=
  forall i, (S i < length g)%nat -> nth i g 0 <= nth (S i) g 0.

(** [n] points from [a] to [b] at equal distances. *)
Definition even_grid (a b : R) (n : nat) (g : list R) : Prop :=
  length g = n /\ forall i, (i < n)%nat -> nth i g 0 = a + INR i * ((b - a) / INR (n - 1)).

(** Volume of a sphere. *)
Definition sphere_volume (r : R) : R := 4 / 3 * PI * r ^ 3.

(** The scattering cross section carried by the angular distribution [w] over
    the angles of [grid] and an azimuth range [azi], for wavenumber [k]:
    azi/k^2 times the integral of w sin(theta). *)
Definition cross_sec (k azi : R) (grid : list R) (w : R -> R) : R :=
  azi / k ^ 2 * trap_int (fun t => w t * sin t) grid.

(** Specification of a tilted-facet surface (C138-C140), independent of the
    model. *)
From Verif Require Import Num Spec.
Open Scope R_scope.

(** Density of the facet angle [a] when the facet slope tan(a) follows the
    distribution P(tan a <= x) = 1 - exp(-x^2 / (2 r^2)), r the r.m.s. slope. *)
Definition slope_density (r a : R) : R :=
  sin a / (r ^ 2 * cos a ^ 3) * exp (- (tan a) ^ 2 / (2 * r ^ 2)).

(** The facet angles offered to the draw are j * 90/499 degrees, j = 0 .. 499. *)
Definition facet_angle (j : nat) : R := INR j * (PI / 998).

(** The law of the draw; a vertical facet (j = 499) has probability 0. *)
Definition facet_law (r : R) (j : nat) : R :=
  if Nat.eqb j 499 then 0 else slope_density r (facet_angle j).

(** Unit direction with polar angle [theta] and azimuth [phi]. *)
Definition incident (theta phi : R) : vec := (sin theta * cos phi, sin theta * sin phi, cos theta).

(** Value at [x] in [0,1] of the straight line from [a] to [b]. *)
Definition at_fraction (a b x : R) : R := a + (b - a) * x.

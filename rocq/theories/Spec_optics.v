(** Specification vocabulary for the optics properties (C48-C58 and later),
    independent of the model. *)
From Coq Require Import Reals List.
Import ListNotations.
Open Scope R_scope.

(** Visible light, in micrometres. *)
Definition visible (w : R) : Prop := 0.38 <= w <= 0.8.

(** A table of (abscissa, ordinate) pairs with increasing abscissae. *)
Definition increasing (t : list (R * R)) : Prop :=
  forall i, (S i < length t)%nat -> fst (nth i t (0, 0)) < fst (nth (S i) t (0, 0)).

(** The straight line through two points. *)
Definition chord (p q : R * R) (x : R) : R :=
  snd p + (snd q - snd p) * ((x - fst p) / (fst q - fst p)).

(** The three-term Cauchy dispersion formula. *)
Definition cauchy3 (c d e w : R) : R := c + d / w ^ 2 + e / w ^ 4.

(** [x] lies between [a] and [b], in either order. *)
Definition between (a b x : R) : Prop := Rmin a b <= x <= Rmax a b.

(** Bruggeman's equation for (volume fraction, complex index) pairs:
    the sum of f (n^2 - z^2)/(n^2 + 2 z^2) vanishes. *)
From Coquelicot Require Import Complex.
Definition bruggeman (parts : list (R * C)) (z : C) : Prop :=
  fold_right Cplus (RtoC 0)
    (map (fun p => let '(f, n) := p in
       Cmult (RtoC f) (Cdiv (Cminus (Cmult n n) (Cmult z z))
                            (Cplus (Cmult n n) (Cmult (RtoC 2) (Cmult z z))))) parts)
  = RtoC 0.

(** An index of a medium without gain. *)
Definition passive (n : C) : Prop := 0 < fst n /\ 0 <= snd n.

(** Loss tangent order: [loss_le a b] says that permittivity [a^2] has at most
    the phase of [b^2] (both without gain). *)
Definition loss_le (a b : C) : Prop :=
  snd (Cmult a a) * fst (Cmult b b) <= snd (Cmult b b) * fst (Cmult a a).

(** The three-dimensional Fourier transform, at wavenumber [q] > 0, of a
    function of the distance that vanishes beyond distance 1 (in units of the
    particle diameter): 4 pi times the integral of r^2 c(r) sin(q r)/(q r). *)
From Coquelicot Require Import Coquelicot.
Definition radial_transform (c : R -> R) (q : R) : R :=
  4 * PI * RInt (fun r => r ^ 2 * (sin (q * r) / (q * r)) * c r) 0 1.

(** Number density of spheres of diameter 1 at volume fraction [phi]. *)
Definition hs_density (phi : R) : R := 6 * phi / PI.

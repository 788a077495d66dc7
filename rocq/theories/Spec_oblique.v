(** Light that crosses a film without being scattered, at any angle of
    incidence, for C159. *)
From Coq Require Import Reals List.
From Verif Require Import Num Spec M_init M_montecarlo M_detector M_simulation.
Import ListNotations.
Open Scope R_scope.

(** Snell's law: the angle in index b of a ray that has the angle th in index a. *)
Definition refracted (a th b : R) : R := asin (a * sin th / b).

(** Fresnel reflectance of unpolarized light that meets the surface from index
    a to index b at angle th: the mean of the textbook formulas for the two
    polarizations. *)
Definition unpolarized_R (a b th : R) : R :=
  (textbook_Rp a th b (refracted a th b) + textbook_Rs a th b (refracted a th b)) / 2.

(** What gets from index a, at angle th, through a layer (index g, with all the
    reflections inside it; [EPS] is the number of the code that keeps its
    denominator away from 0) into index b.  Without a layer, g = a. *)
Definition through_at (a : R) (layer : option R) (b th : R) : R :=
  let g := match layer with Some g => g | None => a end in
  let tg := refracted a th g in
  (1 - unpolarized_R a g th) * (1 - unpolarized_R g b tg)
  / (1 - unpolarized_R g b tg * unpolarized_R g a tg + EPS).

(** The angle of incidence of trajectory i, drawn between tmin and tmax, and
    its angle to the normal inside the film. *)
Definition incidence (tmin tmax : R) (D : draws) (i : nat) : R := tmin + (tmax - tmin) * d_l2 D i.
Definition inner (tmin tmax : R) (P : params) (D : draws) (i : nat) : R :=
  refracted (p_nmedium P) (incidence tmin tmax D i) (p_nsample P).

(** What both surfaces let through of it. *)
Definition both_at (P : params) (th : R) : R :=
  through_at (p_nmedium P) (p_nfront P) (p_nsample P) th
  * through_at (p_nsample P) (p_nback P) (p_nmedium P) (refracted (p_nmedium P) th (p_nsample P)).

(** The coverslips let light of these angles in (no total reflection there). *)
Definition slips_admit (P : params) (tmax : R) : Prop :=
  forall m, p_nfront P = Some m \/ p_nback P = Some m -> p_nmedium P * sin tmax < m.

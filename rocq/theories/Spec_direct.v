(** Light that crosses a film without being scattered, for C156. *)
From Coq Require Import Reals List.
From Verif Require Import Num Spec M_init M_montecarlo M_detector M_simulation.
Import ListNotations.
Open Scope R_scope.

(** Fresnel's formulas at normal incidence, between media of indices a and b,
    and the light that gets through a layer of index g between a and b (with
    all the reflections inside it, unpolarized; [EPS] is the number of the code
    that keeps its denominator away from 0).  Without a layer, g = a. *)
Definition normal_T (a b : R) : R := 4 * a * b / (a + b) ^ 2.
Definition normal_R (a b : R) : R := ((a - b) / (a + b)) ^ 2.
Definition through (a : R) (layer : option R) (b : R) : R :=
  let g := match layer with Some g => g | None => a end in
  normal_T a g * normal_T g b / (1 - normal_R g b * normal_R g a + EPS).

(** The draws [D] with the first step of trajectory i drawn from t i (its
    fractional part, so that it is a number in [0, 1)). *)
Definition with_first_draws (t : nat -> R) (D : draws) : draws :=
  mk_draws (d_l0 D) (d_l1 D) (d_l2 D) (d_l3 D) (d_ang D)
    (fun n i => match n with O => frac_part (t i) | S _ => d_u D n i end) (d_rang D) (d_rstep D).

(** The part of the incident light that leaves through the back of the sample
    in trajectories whose first event is the exit: their share of
    trans_weight/ntraj (0 for a result that is NaN). *)
Definition direct_fraction (r : result (option outcome)) : R :=
  match r with
  | Ok (Some o) => fold_right Rplus 0 (map (fun x => if Nat.eqb (fst x) 1 then snd x else 0) (combine (o_trans_i o) (o_trans_pass o)))
  | _ => 0
  end.

(** A smooth film seen by a plain call: no re-runs, no goniometer, no roughness
    arrays, sample index at least the medium's, positive coverslip indices. *)
Definition plain_film (P : params) : Prop :=
  p_boundary P = film /\ p_run P = false /\ p_gonio P = None /\ p_kz0rot P = None /\ p_kz0refl P = None
  /\ p_nparticle P = None /\ p_zlow P = 0 /\ 0 < p_thickness P /\ 0 <= p_muabs P /\ 0 < p_nmedium P <= p_nsample P
  /\ (forall m, p_nfront P = Some m -> 0 < m) /\ (forall m, p_nback P = Some m -> 0 < m).
(** What both surfaces let through at normal incidence. *)
Definition both_surfaces (P : params) : R :=
  through (p_nmedium P) (p_nfront P) (p_nsample P) * through (p_nsample P) (p_nback P) (p_nmedium P).

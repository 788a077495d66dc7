(** Almost all light leaves a sphere, for C168. *)
From Coq Require Import Reals List.
From Verif Require Import Num Spec_scat Spec_detector Spec_estimate M_init M_montecarlo M_detector M_simulation M_scat.
Import ListNotations.
Open Scope R_scope.

(** The draws [D] with the azimuth of the launch point, the first [e]
    scatterings and the step after each, of every trajectory drawn from uniform
    numbers s, 3 e + 1 of them per trajectory: the launch azimuth is drawn with
    s 0; scattering k has the polar angle that sample_angles draws from the
    phase function [p] with the number s (3 k + 1), the azimuth it draws with
    s (3 k + 3), and is followed by a step drawn with s (3 k + 2).  The distance
    of the launch point from the axis and the first step are those of [D]. *)
Definition with_launches (p : list R) (lo : R) (e : nat) (t : nat -> R) (D : draws) : draws :=
  mk_draws (d_l0 D) (fun i => numbers_of (3 * e + 1) t i 0%nat) (d_l2 D) (d_l3 D)
    (fun i k => let s := numbers_of (3 * e + 1) t i in
       if Nat.ltb k e then match sample_angle_1d p lo (s (3 * k + 3)%nat) (s (3 * k + 1)%nat) with Ok a => a | Err _ => (0, 0) end
       else d_ang D i k)
    (fun n i => let s := numbers_of (3 * e + 1) t i in
       match n with
       | O => d_u D n i
       | S k => if Nat.ltb k e then frac_part (s (3 * k + 2)%nat) else d_u D n i
       end)
    (d_rang D) (d_rstep D).

(** The probability that a step is no longer than the diameter [d]: no more
    than this share of the light that has not left the sphere before an event
    stays there at the event. *)
Definition ball_rate (mu d : R) : R := 1 - exp (- (mu * d)).

(** A call for a sphere of the index of the medium around it, without
    roughness, goniometer or re-runs, and a spot no larger than the sphere. *)
Definition matched_ball (spot : R) (P : params) : Prop :=
  p_boundary P = sphere /\ p_run P = false /\ plain P /\ full_detection P /\ 0 <= p_muabs P /\ 0 < p_thickness P /\ 0 < spot <= p_thickness P
  /\ 0 < p_nmedium P /\ p_nsample P = p_nmedium P /\ valid_params P 1.

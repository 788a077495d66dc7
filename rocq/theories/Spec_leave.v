(** Almost all light leaves a film, for C166. *)
From Coq Require Import Reals List.
From Coquelicot Require Import Coquelicot.
From Verif Require Import Num Spec Spec_scat Spec_mean Spec_estimate Spec_diffuse Spec_later M_init M_montecarlo M_detector M_simulation M_scat.
Import ListNotations.
Open Scope R_scope.

(** The mean of [F t], t 0, ..., t (N-1) independent and uniform in [0, 1], is
    at most [b]: F is bounded by a function that has a mean (Spec_mean.v), and
    this mean is at most b. *)
Definition mean_at_most (N : nat) (F : (nat -> R) -> R) (b : R) : Prop :=
  exists G g, (forall t, F t <= G t) /\ is_mean N G g /\ g <= b.

(** The draws [D] with the first [e] scatterings, and the step after each, of
    every trajectory drawn from uniform numbers s, 3 e of them per trajectory:
    scattering k has the polar angle that sample_angles draws from the phase
    function [p] with the number s (3 k), the azimuth it draws with s (3 k + 2),
    and is followed by a step drawn with s (3 k + 1).  Launch and first step are
    those of [D]. *)
Definition with_scatterings (p : list R) (lo : R) (e : nat) (t : nat -> R) (D : draws) : draws :=
  mk_draws (d_l0 D) (d_l1 D) (d_l2 D) (d_l3 D)
    (fun i k => let s := numbers_of (3 * e) t i in
       if Nat.ltb k e then match sample_angle_1d p lo (s (3 * k + 2)%nat) (s (3 * k)%nat) with Ok a => a | Err _ => (0, 0) end
       else d_ang D i k)
    (fun n i => let s := numbers_of (3 * e) t i in
       match n with
       | O => d_u D n i
       | S k => if Nat.ltb k e then frac_part (s (3 * k + 1)%nat) else d_u D n i
       end)
    (d_rang D) (d_rstep D).

(** [h] of the new z component when light with z component [z] is scattered at
    azimuth 2 pi x, averaged over the polar angles of the phase function. *)
Definition after_scattering (p : list R) (lo : R) (h : R -> R) (z x : R) : R :=
  average p lo (fun th => h (z * cos th + sqrt (1 - z ^ 2) * sin th * cos (2 * PI * x))).
(** From every direction, a scattering brings light with probability at least
    [beta] to a direction whose z component is larger than [c] in size: some
    continuous function below the indicator of these directions has a mean of
    at least beta after every scattering. *)
Definition reaches (p : list R) (lo c beta : R) : Prop :=
  exists h : R -> R, (forall y, continuous h y) /\ (forall z, -1 <= z <= 1 -> h z <= 1) /\ (forall z, Rabs z <= c -> h z <= 0)
    /\ forall z v, -1 <= z <= 1 -> is_RInt (after_scattering p lo h z) 0 1 v -> beta <= v.
(** Then no more than this share of the light that has not left a film of
    thickness [d] before an event stays there at the event. *)
Definition stay_rate (mu d c beta : R) : R := 1 - exp (- (mu * d / c)) * beta.

(** The share of the trajectories still inside in a run that returns numbers
    (a film run returns NaN if nothing was absorbed and nothing let through). *)
Definition inside_share (r : result (option outcome)) : R := match r with Ok (Some _) => unfinished r | _ => 0 end.

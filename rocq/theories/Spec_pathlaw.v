(** Absorption and path length, for C160. *)
From Coq Require Import Reals List ZArith.
From Verif Require Import Num Spec M_init M_montecarlo M_detector M_simulation.
Import ListNotations.
Open Scope R_scope.

(** A trajectory before absorption: its positions, its directions and the steps
    between them; and the trajectory [Trajectory.absorb] makes of it, all
    weights 1 at first. *)
Record walk := mk_walk { k_pos : list vec; k_dir : list vec; k_steps : list R }.
Definition absorbed (mu_abs : R) (w : walk) : traj :=
  mk_traj (k_pos w) (k_dir w) (absorb mu_abs (repeat 1 (length (k_steps w))) (k_steps w)).

(** The same call for a sample of another absorption coefficient. *)
Definition with_absorption (a : R) (P : params) : params :=
  mk_params (p_thickness P) (p_nmedium P) (p_nsample P) (p_boundary P) (p_zlow P) (p_detection P) (p_nfront P) (p_nback P)
    (p_run P) (p_maxdepth P) (p_maxstuck P) a (p_gonio P) (p_kz0rot P) (p_kz0refl P) (p_fine P) (p_nparticle P) (p_nmatrix P).

(** Light weakened by absorption over the lengths l. *)
Definition weakened (a : R) (weights l : list R) : list R := map2 (fun w x => w * exp (- (a * x))) weights l.

(** The steps of the trajectories of a run (one list per trajectory), drawn
    from an exponential law of mean 1 / mu_scat. *)
Definition drawn_steps (nevents ntraj : nat) (mu_scat : R) (D : draws) : list (list R) :=
  map (fun i => map (fun n => - ln (1 - d_u D n i) / mu_scat) (seq 0 nevents)) (seq 0 ntraj).

(** In a film of this thickness (and its mirror images below and above) a ray
    at height z that goes on in a direction of z-component kz meets the first
    surface after the distance d. *)
Definition meets_surface (thickness z kz d : R) : Prop :=
  (exists m : Z, z + d * kz = IZR m * thickness)
  /\ forall x, 0 < x < d -> forall m : Z, z + x * kz <> IZR m * thickness.

(** A walk of at least one step in which every step leads to the next height;
    the directions are unit vectors' z-components. *)
Definition proper_walk (w : walk) : Prop :=
  (0 < length (k_steps w))%nat /\ length (k_dir w) = length (k_steps w) /\ length (k_pos w) = S (length (k_steps w))
  /\ (forall k, In k (k_dir w) -> -1 <= vz k <= 1) /\ (forall s, In s (k_steps w) -> 0 <= s)
  /\ forall j, (j < length (k_steps w))%nat ->
       vz (nth (S j) (k_pos w) vzero) = vz (nth j (k_pos w) vzero) + nth j (k_steps w) 0 * vz (nth j (k_dir w) vzero).

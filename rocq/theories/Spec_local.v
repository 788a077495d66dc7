(** Scattering angles measured from the previous direction of propagation, as
    the documentation of Trajectory.scatter defines them ("a local spherical
    coordinate system"), for C154 and C155. *)
From Coq Require Import Reals List.
From Verif Require Import Num Spec M_init M_montecarlo M_detector M_simulation.
Import ListNotations.
Open Scope R_scope.

(** A direction with two vectors perpendicular to it: (e1, e2, k). *)
Definition frame := (vec * vec * vec)%type.
Definition fr_1 (f : frame) : vec := fst (fst f).
Definition fr_2 (f : frame) : vec := snd (fst f).
Definition fr_dir (f : frame) : vec := snd f.
Definition orthonormal (f : frame) : Prop :=
  dot (fr_1 f) (fr_1 f) = 1 /\ dot (fr_2 f) (fr_2 f) = 1 /\ dot (fr_dir f) (fr_dir f) = 1
  /\ dot (fr_1 f) (fr_2 f) = 0 /\ dot (fr_1 f) (fr_dir f) = 0 /\ dot (fr_2 f) (fr_dir f) = 0.
Definition lab : frame := ((1, 0, 0), (0, 1, 0), (0, 0, 1)).

(** Turn by the polar angle [theta] from the direction of [f], at azimuth
    [phi] counted from its first vector. *)
Definition turn_frame (f : frame) (theta phi : R) : frame :=
  let radial := vadd (vscale (cos phi) (fr_1 f)) (vscale (sin phi) (fr_2 f)) in
  (vadd (vscale (cos theta) radial) (vscale (- sin theta) (fr_dir f)),
   vadd (vscale (- sin phi) (fr_1 f)) (vscale (cos phi) (fr_2 f)),
   vadd (vscale (sin theta) radial) (vscale (cos theta) (fr_dir f))).

(** The directions after each of the scatterings [angles]. *)
Fixpoint local_dirs (f : frame) (angles : list (R * R)) : list vec :=
  match angles with
  | [] => []
  | (theta, phi) :: l => let f' := turn_frame f theta phi in fr_dir f' :: local_dirs f' l
  end.

(** A run on a film in which every scattering turns the direction in its own
    frame.  Trajectory [i] enters at polar angle [entry i] (inside the sample)
    and azimuth [azimuth i], and its n-th scattering is [ang i n]; steps,
    weights and detection as in the code. *)
Definition local_traj (nevents : nat) (mu_abs : R) (f : frame) (ang : nat -> R * R) (step : list R) : traj :=
  let dirs := fr_dir f :: local_dirs f (map ang (seq 0 (nevents - 1))) in
  mk_traj (move (vzero :: repeat vzero nevents) dirs step) dirs (absorb mu_abs (repeat 1 nevents) step).
Definition local_film_run (nevents ntraj : nat) (entry azimuth : nat -> R) (mu_scat : R) (P : params) (D : draws)
  (ang : nat -> nat -> R * R) : result (option outcome) :=
  calc_refl_trans 22 (d_rang D) (d_rstep D) P false 0
    (map (fun i => local_traj nevents (p_muabs P) (turn_frame lab (entry i) (azimuth i)) (ang i)
                     (map (fun n => step_of mu_scat (d_u D n i)) (seq 0 nevents)))
         (seq 0 ntraj)).

(** The draws [D] with the azimuths replaced: trajectory [i] is launched at
    azimuth 2 pi t (i * nevents) (as a draw in [0,1]) and scattered for the
    n-th time (n = 0, 1, ...) at azimuth 2 pi t (i * nevents + n + 1). *)
Definition with_azimuths (nevents : nat) (t : nat -> R) (D : draws) : draws :=
  mk_draws (d_l0 D) (d_l1 D) (d_l2 D) (fun i => t (i * nevents)%nat)
    (fun i n => (fst (d_ang D i n), 2 * PI * t (i * nevents + S n)%nat))
    (d_u D) (d_rang D) (d_rstep D).
(** The same polar angles with the azimuths 2 pi t (i * nevents + n). *)
Definition local_azimuths (nevents : nat) (t : nat -> R) (D : draws) : nat -> nat -> R * R :=
  fun i n => (fst (d_ang D i n), 2 * PI * t (i * nevents + n)%nat).

(** The column of directions after [n] scatterings of a trajectory that starts
    in direction [k], as Trajectory.scatter computes it. *)
Definition scattered (k : vec) (n : nat) (ang : nat -> R * R) : list vec :=
  match scatter (k :: repeat vzero n) (map ang (seq 0 n)) with Ok l => l | Err _ => [] end.
(** The same in local frames. *)
Definition scattered_locally (f : frame) (n : nat) (ang : nat -> R * R) : list vec :=
  fr_dir f :: local_dirs f (map ang (seq 0 n)).
Definition direction (theta phi : R) : vec := (sin theta * cos phi, sin theta * sin phi, cos theta).

(** Model of a whole Monte Carlo run, the sequence of calls every script and
    test of the package makes (structcol/tests/test_detector.py:570-634,
    structcol/montecarlo.py docstrings): [initialize], [sample_angles],
    [sample_step], [Trajectory.absorb], [Trajectory.scatter],
    [Trajectory.move], then [calc_refl_trans].  No proofs in this file. *)
From Verif Require Import Num Spec M_init M_montecarlo M_detector.
Open Scope R_scope.

(** The draws of a run: [d_ang i n] is the (theta, phi) that
    [mc.sample_angles] returns for trajectory i, event n; [d_u n i] the uniform
    draw of [mc.sample_step]; [d_l0 i], [d_l1 i], [d_l2 i], [d_l3 i] those of
    [mc.initialize]; [d_rang], [d_rstep] the angles and steps of the re-runs. *)
Record draws := mk_draws {
  d_l0 : nat -> R; d_l1 : nat -> R; d_l2 : nat -> R; d_l3 : nat -> R;
  d_ang : nat -> nat -> R * R; d_u : nat -> nat -> R;
  d_rang : nat -> nat -> nat -> R * R; d_rstep : nat -> nat -> nat -> R }.

(** structcol/montecarlo.py:1393-1396 the array of uniform draws of
    [sample_step]: nevents rows of ntraj draws. *)
Definition uniform_rows (nevents ntraj : nat) (u : nat -> nat -> R) : list (list R) :=
  map (fun n => map (u n) (seq 0 ntraj)) (seq 0 nevents).

(** structcol/montecarlo.py:172-237, 413-439: absorb, scatter and move applied
    to trajectory [i] of the arrays that [initialize] returned.  The column of
    directions has [nevents] slots, of positions nevents+1; only the first of
    each is set by [initialize].  A NaN launch direction (None) makes the whole
    trajectory NaN; that case is not modelled further. *)
Definition run_traj (nevents : nat) (mu_abs : R) (ang : nat -> R * R) (step : list R) (s : start)
  : result (option traj) :=
  let '(p, d, w) := s in
  match d with
  | None => Ok None
  | Some k =>
      bind (scatter (k :: repeat vzero (nevents - 1)) (map ang (seq 0 (nevents - 1)))) (fun dirs =>
      Ok (Some (mk_traj (move (p :: repeat vzero nevents) dirs step) dirs (absorb mu_abs w step))))
  end.

Fixpoint run_trajs (nevents : nat) (mu_abs : R) (ang : nat -> nat -> R * R) (steps : list (list R))
  (i : nat) (l : list start) : result (option (list traj)) :=
  match l with
  | [] => Ok (Some [])
  | s :: l' =>
      bind (run_traj nevents mu_abs (ang i) (map (fun row => nth i row 0) steps) s) (fun t =>
      bind (run_trajs nevents mu_abs ang steps (S i) l') (fun ts =>
      match t, ts with Some t, Some ts => Ok (Some (t :: ts)) | _, _ => Ok None end))
  end.

(** The trajectories of a run from what [initialize] returned. *)
Definition trajectories (nevents ntraj : nat) (mu_scat mu_abs : R) (D : draws) (starts : list start)
  : result (option (list traj)) :=
  bind (sample_step ntraj mu_scat None 0 (uniform_rows nevents ntraj (d_u D)) (fun _ => 0)) (fun steps =>
  run_trajs nevents mu_abs (d_ang D) steps 0 starts).

(** A run on a film: spot size, launch cone, scattering and absorption
    coefficients, then the arguments of [calc_refl_trans] ([p_muabs] is the
    absorption coefficient handed to both).  [Ok None]: NaN. *)
Definition film_run (nevents ntraj : nat) (spot tmin tmax pmin pmax mu_scat : R)
  (P : params) (D : draws) : result (option outcome) :=
  bind (initialize_film nevents ntraj spot None None None tmin tmax pmin pmax
          (p_nmedium P) (p_nsample P) (d_l0 D) (d_l1 D) (d_l2 D) (d_l3 D)) (fun starts =>
  bind (trajectories nevents ntraj mu_scat (p_muabs P) D starts) (fun ts =>
  match ts with
  | None => Ok None
  | Some trs => calc_refl_trans 22 (d_rang D) (d_rstep D) P false 0 trs
  end)).

(** A run on a sphere of diameter [p_thickness P]. *)
Definition sphere_run (nevents ntraj : nat) (spot mu_scat : R) (P : params) (D : draws)
  : result (option outcome) :=
  bind (initialize_sphere nevents ntraj spot (Some (p_thickness P))
          (p_nmedium P) (p_nsample P) (d_l0 D) (d_l1 D)) (fun starts =>
  bind (trajectories nevents ntraj mu_scat (p_muabs P) D starts) (fun ts =>
  match ts with
  | None => Ok None
  | Some trs => calc_refl_trans 22 (d_rang D) (d_rstep D) P false 0 trs
  end)).

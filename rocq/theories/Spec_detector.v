(** Vocabulary of the property statements about detector.py: what a valid
    trajectory and a valid set of arguments are.  Uses the model's data types
    (traj, params) but none of its computations, except [choose_n_tir] in
    [good_params] (shown to follow from [valid_params]). *)
From Coq Require Import Reals List.
From Verif Require Export Spec M_detector.
Open Scope R_scope.

(** One more position than directions, as many weights as directions, and at
    least one event. *)
Definition wf_len (t : traj) : Prop :=
  length (t_pos t) = S (length (t_dir t)) /\ length (t_w t) = length (t_dir t)
  /\ (0 < length (t_dir t))%nat.

(** z-components of directions are cosines. *)
Definition dirs_ok (t : traj) : Prop := Forall (fun k => -1 <= vz k <= 1) (t_dir t).

(** All weights of the trajectory are between 0 and [W]. *)
Definition col_ok (W : R) (t : traj) : Prop :=
  wf_len t /\ Forall (fun w => 0 <= w <= W) (t_w t).

(** The whole trajectory moved by [s] along z. *)
Definition shift_z (s : R) (t : traj) : traj :=
  mk_traj (map (fun p => (vx p, vy p, vz p + s)) (t_pos t)) (t_dir t) (t_w t).

(** Event numbers (r, t, s) = reflected, transmitted, stuck, given the exits
    flagged in each direction: exactly one of them is set, at the first exit
    (events are numbered from 1), or at the last event [n] when there is none. *)
Definition one_outcome (n : nat) (pos neg : list bool) (r t s : nat) : Prop :=
  (never_true neg /\ never_true pos /\ r = 0%nat /\ t = 0%nat /\ s = n)
  \/ (exists i, first_true (map2 orb neg pos) i /\ nth i neg false = true
        /\ (i < n)%nat /\ r = S i /\ t = 0%nat /\ s = 0%nat)
  \/ (exists i, first_true (map2 orb neg pos) i /\ nth i pos false = true
        /\ (i < n)%nat /\ r = 0%nat /\ t = S i /\ s = 0%nat).

(** Point [p] is in the closed ball of the given radius resting on z = 0. *)
Definition in_sphere (radius : R) (p : vec) : Prop :=
  vx p ^ 2 + vy p ^ 2 + (vz p - radius) ^ 2 <= radius ^ 2.

(** Arguments of calc_refl_trans for [n] trajectories: positive medium and
    coverslip indices, non-zero sample index, positive particle and matrix
    indices with a fine roughness in [0,1], roughness arrays of length n. *)
Definition valid_params (P : params) (n : nat) : Prop :=
  0 < p_nmedium P /\ p_nsample P <> 0
  /\ 0 <= p_fine P <= 1
  /\ (forall m, p_nparticle P = Some m -> 0 < m) /\ (forall m, p_nmatrix P = Some m -> 0 < m)
  /\ (forall m, p_nfront P = Some m -> 0 < m) /\ (forall m, p_nback P = Some m -> 0 < m)
  /\ (forall l, p_kz0rot P = Some l -> length l = n)
  /\ (forall l, p_kz0refl P = Some l -> length l = n).

(** The consequences of [valid_params] that the proofs use. *)
Definition good_params (P : params) (n : nat) : Prop :=
  0 < p_nmedium P /\ p_nsample P <> 0 /\ 0 < choose_n_tir P
  /\ (forall m, p_nfront P = Some m -> 0 < m) /\ (forall m, p_nback P = Some m -> 0 < m)
  /\ (forall l, p_kz0rot P = Some l -> length l = n)
  /\ (forall l, p_kz0refl P = Some l -> length l = n).

(** No surface roughness, no goniometer: the plain call. *)
Definition plain (P : params) : Prop :=
  p_gonio P = None /\ p_kz0rot P = None /\ p_kz0refl P = None
  /\ p_nparticle P = None /\ p_nmatrix P = None.

(** The full hemisphere is detected. *)
Definition full_detection (P : params) : Prop := p_detection P = PI / 2.

(** All weights of the trajectory are equal to [W] (no absorption). *)
Definition flat (W : R) (t : traj) : Prop := t_w t = repeat W (length (t_dir t)).

(** Concrete cases used in examples and counterexamples.
    A horizontal ray leaving a sphere of radius 1 below the equator. *)
Definition low_ray (h : R) : traj := mk_traj [(0, 0, 1 - h); (2, 0, 1 - h)] [(1, 0, 0)] [1].

(** A sphere of radius 1 without any index contrast, one trajectory that stays
    inside, non-absorbing. *)
Definition still_sphere (depth : nat) : params :=
  mk_params 2 1 1 sphere 0 (PI / 2) None None true depth (1 / 100) 0 None None None 0 None None.
Definition inner_traj : traj := mk_traj [(0, 0, 0); (0, 0, 1)] [(0, 0, 1)] [1].

(** The first position of the trajectory outside the sphere is number [i + 1];
    all positions up to number [i], the start included, are inside. *)
Definition leaves_sphere (radius : R) (t : traj) (i : nat) : Prop :=
  (i < length (t_dir t))%nat
  /\ ~ in_sphere radius (nth (S i) (t_pos t) vzero)
  /\ (forall j, (j <= i)%nat -> in_sphere radius (nth j (t_pos t) vzero)).

(** The square detector of side [len] at distance [dist] and polar angle
    [theta] from the normal (towards +x) on the side z < 0 of the sample, seen
    as a window of the detection hemisphere. *)
Definition on_detector (theta len dist : R) (h : vec) : Prop :=
  Rabs (vx h - dist * sin theta) < len * cos theta / 2 /\ Rabs (vy h) < len / 2 /\ vz h < 0.
Definition hemisphere_radius_sq (len dist : R) : R := dist ^ 2 + (len / 2) ^ 2.

(** Vocabulary for C132-C137: one simulation seen as another one. *)
From Coq Require Import Reals List.
From Verif Require Import Spec Spec_detector M_detector.
Import ListNotations.
Open Scope R_scope.

(** Turning about the z axis by the angle with cosine [c] and sine [s]
    ([e] = 1), or mirroring in a plane that contains the z axis ([e] = -1). *)
Definition turn (c s e : R) (v : vec) : vec := (c * vx v - e * s * vy v, s * vx v + e * c * vy v, vz v).
Definition turned (c s e : R) (t : traj) : traj :=
  mk_traj (map (turn c s e) (t_pos t)) (map (turn c s e) (t_dir t)) (t_w t).
Definition is_turn (c s e : R) : Prop := c ^ 2 + s ^ 2 = 1 /\ (e = 1 \/ e = -1).

(** Two trajectories with the same heights, slopes and weights. *)
Definition same_heights (t t' : traj) : Prop :=
  map vz (t_pos t) = map vz (t_pos t') /\ map vz (t_dir t) = map vz (t_dir t') /\ t_w t = t_w t'.

(** No position further from the axis than 1e20 sphere radii (beyond that the
    code treats coordinates as infinite). *)
Definition near_axis (radius : R) (t : traj) : Prop :=
  Forall (fun p => vx p ^ 2 + vy p ^ 2 <= (10 ^ 20 * radius) ^ 2) (t_pos t).

(** All lengths multiplied by [l]. *)
Definition rescaled (l : R) (t : traj) : traj := mk_traj (map (vscale l) (t_pos t)) (t_dir t) (t_w t).
Definition rescaled_params (l : R) (P : params) : params :=
  mk_params (l * p_thickness P) (p_nmedium P) (p_nsample P) (p_boundary P) (l * p_zlow P) (p_detection P)
    (p_nfront P) (p_nback P) (p_run P) (p_maxdepth P) (p_maxstuck P) (p_muabs P / l) (p_gonio P)
    (p_kz0rot P) (p_kz0refl P) (p_fine P) (p_nparticle P) (p_nmatrix P).

(** [t'] is [t] followed for some more events. *)
Definition continues (t t' : traj) : Prop :=
  exists ps ds ws, t' = mk_traj (t_pos t ++ ps) (t_dir t ++ ds) (t_w t ++ ws)
    /\ length ps = length ds /\ length ws = length ds.

(** The same call with another detection angle. *)
Definition with_detection (a : R) (P : params) : params :=
  mk_params (p_thickness P) (p_nmedium P) (p_nsample P) (p_boundary P) (p_zlow P) a
    (p_nfront P) (p_nback P) (p_run P) (p_maxdepth P) (p_maxstuck P) (p_muabs P) (p_gonio P)
    (p_kz0rot P) (p_kz0refl P) (p_fine P) (p_nparticle P) (p_nmatrix P).

(** The same path carrying less weight everywhere. *)
Definition dimmer (t t' : traj) : Prop :=
  t_pos t' = t_pos t /\ t_dir t' = t_dir t /\ Forall2 (fun w' w => 0 <= w' <= w) (t_w t') (t_w t).

(** The two numbers calc_refl_trans returns: reflectance and transmittance. *)
Definition answer (r : result (option outcome)) : result (option (R * R)) :=
  match r with
  | Err e => Err e
  | Ok None => Ok None
  | Ok (Some o) => Ok (Some (o_refl o, o_trans o))
  end.


(** Vocabulary for C150: films of different thickness. *)
From Coq Require Import Reals List.
From Verif Require Import Spec Spec_detector M_detector.
Import ListNotations.
Open Scope R_scope.

(** The same call for a film of another thickness. *)
Definition with_thickness (th : R) (P : params) : params :=
  mk_params th (p_nmedium P) (p_nsample P) (p_boundary P) (p_zlow P) (p_detection P)
    (p_nfront P) (p_nback P) (p_run P) (p_maxdepth P) (p_maxstuck P) (p_muabs P) (p_gonio P)
    (p_kz0rot P) (p_kz0refl P) (p_fine P) (p_nparticle P) (p_nmatrix P).

(** Every position is the previous one plus a step along the direction of
    travel (heights only). *)
Definition follows_directions (t : traj) : Prop :=
  forall i, (i < length (t_dir t))%nat -> exists s,
    vz (nth (S i) (t_pos t) vzero) = vz (nth i (t_pos t) vzero) + s * vz (nth i (t_dir t) vzero).

(** The weight never grows along the trajectory. *)
Definition fading (t : traj) : Prop :=
  forall i j, (i <= j < length (t_w t))%nat -> nth j (t_w t) 0 <= nth i (t_w t) 0.

(** No index step at the faces of the film, no coverslips. *)
Definition index_matched (P : params) : Prop :=
  0 < p_nsample P /\ p_nmedium P = p_nsample P /\ p_nfront P = None /\ p_nback P = None.

(** What happens to a trajectory: number of the event at which it is reflected
    or transmitted (0 if it is not). *)
Definition reflected_at (P : params) (t : traj) : nat :=
  let '(r, _, _, _) := event_indices (p_nsample P) (p_nmedium P) (p_thickness P) (p_zlow P) (p_boundary P) t in r.
Definition transmitted_at (P : params) (t : traj) : nat :=
  let '(_, k, _, _) := event_indices (p_nsample P) (p_nmedium P) (p_thickness P) (p_zlow P) (p_boundary P) t in k.

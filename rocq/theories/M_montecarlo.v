(** Model of structcol/montecarlo.py.  No proofs in this file.

    A (3, nevents, ntraj) array is a list, over trajectories, of columns; a
    column lists the vectors of one trajectory over events.  The methods of
    [Trajectory] act on columns independently. *)
From Verif Require Export Num M_init.
From Verif Require Import Spec.
Open Scope R_scope.

(** structcol/montecarlo.py:172-189 [Trajectory.absorb], one trajectory:
    weight * exp(-(mu_abs * cumsum(step))). *)
Definition absorb (mu_abs : R) (weight step : list R) : list R :=
  map2 (fun w c => w * exp (- (mu_abs * c))) weight (cumsum step).

(** structcol/montecarlo.py:222-234, one scattering event: the direction at
    event n from the one at event n-1 and the angles [n-1].  The four arrays
    sintheta, ..., cosphi are always the sines and cosines of one sampled
    theta and phi (lines 1341-1344), so the model takes theta and phi. *)
Definition scatter1 (k : vec) (theta phi : R) : vec :=
  (((vx k * cos theta + vz k * sin theta) * cos phi) - vy k * sin phi,
   ((vx k * cos theta + vz k * sin theta) * sin phi) + vy k * cos phi,
   - vx k * sin theta + vz k * cos theta).

(** structcol/montecarlo.py:191-237 [Trajectory.scatter], one trajectory.
    [dirs] is the direction column before the call (its entries past the
    first are overwritten); the loop runs over n = 1 .. nevents-1 and raises
    IndexError when the angle arrays are too short. *)
Fixpoint scatter_loop (prev : vec) (rest : list vec) (angles : list (R * R))
  : result (list vec) :=
  match rest with
  | [] => Ok []
  | _ :: rest' =>
      match angles with
      | [] => Err IndexError
      | (theta, phi) :: angles' =>
          let k := scatter1 prev theta phi in
          bind (scatter_loop k rest' angles') (fun ks => Ok (k :: ks))
      end
  end.
Definition scatter (dirs : list vec) (angles : list (R * R)) : result (list vec) :=
  match dirs with
  | [] => Ok []
  | k0 :: rest => bind (scatter_loop k0 rest angles) (fun ks => Ok (k0 :: ks))
  end.

(** Cumulative sum of vectors ([np.cumsum] on each of the three components). *)
Fixpoint vcumsum_from (acc : vec) (l : list vec) : list vec :=
  match l with
  | [] => []
  | v :: t => let a := vadd acc v in a :: vcumsum_from a t
  end.

(** structcol/montecarlo.py:413-439 [Trajectory.move], one trajectory.
    displacement[0] is the initial position, displacement[1:] = step*direction
    (line 433), position = cumsum(displacement) (lines 437-439). *)
Definition move (pos : list vec) (dirs : list vec) (step : list R) : list vec :=
  match pos with
  | [] => []
  | p0 :: _ => vcumsum_from vzero (p0 :: map2 (fun s k => vscale s k) step dirs)
  end.

(** Python's [round] (ties to even) of a real, as an integer. *)
Definition round_half_even (x : R) : Z :=
  let f := floorZ x in
  let d := x - IZR f in
  if Rltb d (1 / 2) then f
  else if Rltb (1 / 2) d then (f + 1)%Z
  else if Z.even f then f else (f + 1)%Z.

(** structcol/montecarlo.py:1396 one step from a uniform draw. *)
Definition step_of (mu u : R) : R := - ln (1 - u) / mu.

(** structcol/montecarlo.py:1403, [step[0, 0:m] = ...]: overwrite the first
    [m] entries of a row. *)
Definition overwrite_first (row new : list R) : list R :=
  new ++ skipn (length new) row.

(** structcol/montecarlo.py:1349-1405 [sample_step].  [rand] holds the rows of
    uniform draws (nevents rows of ntraj draws), [rand_mie i] the draws of line
    1402.  [mu_mie = Some _] models the two-element mu_scat. *)
Definition sample_step (ntraj : nat) (mu : R) (mu_mie : option R) (fine_roughness : R)
  (rand : list (list R)) (rand_mie : nat -> R) : result (list (list R)) :=
  if Rltb 1 fine_roughness || Rltb fine_roughness 0 then Err ValueError
  else
    let step := map (map (step_of mu)) rand in
    match mu_mie with
    | None => Ok step
    | Some mm =>
        let ntraj_mie := Z.to_nat (round_half_even (INR ntraj * fine_roughness)) in
        let new := map (fun i => step_of mm (rand_mie i)) (seq 0 ntraj_mie) in
        match step with
        | [] => Err IndexError
        | row0 :: rows => Ok (overwrite_first row0 new :: rows)
        end
    end.

(** [np.linspace(a, b, n)]. *)
Definition linspace (a b : R) (n : nat) : list R :=
  map (fun i => a + INR i * ((b - a) / INR (n - 1))) (seq 0 n).

(** Normalisation x / sum(x) of an array (0/0 is NaN). *)
Definition normalise (l : list R) : list num :=
  let s := Rsum l in
  map (fun x => if Reqb s 0 then None else Some (x / s)) l.

(** structcol/montecarlo.py:1236-1239, the phase function returned by
    [phase_function] from the two differential cross sections (which come from
    model.differential_cross_section / pymie, not modelled). *)
Definition phase_function_p (par perp : list R) : list num :=
  normalise (map2 Rplus par perp).

(** structcol/montecarlo.py:1291-1310, the probabilities of the polar angles
    handed to [rng.choice] by [sample_angles] for a one-dimensional phase
    function. *)
Definition sample_angles_prob (p : list R) (min_angle : R) : list num :=
  let thetas := linspace min_angle PI (length p) in
  normalise (map2 (fun x t => x * sin t * 2 * PI) p thetas).

(** The same list when it is not NaN. *)
Definition somes (l : list num) : list R := map nan_to_num l.

(** [rng.uniform(a, b)] from a uniform draw u in [0,1). *)
Definition uniform (a b u : R) : R := a + (b - a) * u.

(** structcol/montecarlo.py:748-757 direction after refraction of the polar
    angle at the entrance: k = (sin t cos phi, sin t sin phi, cos t), NaN when
    the refraction is. *)
Definition entry_dir (theta cosphi sinphi n_medium n_sample : R) : option vec :=
  match refraction theta (Rabs n_medium) (Rabs n_sample) with
  | None => None
  | Some t => Some (sin t * cosphi, sin t * sinphi, cos t)
  end.

(** What [initialize] returns for one trajectory: initial position, initial
    direction (None = NaN), weight column. *)
Definition start := (vec * option vec * list R)%type.

(** structcol/montecarlo.py:668-705, 748-757: [initialize(boundary='film')]
    without coarse roughness.  [ux], [uy], [ut], [up] are the uniform draws;
    angle data, when given, must have length ntraj. *)
Definition initialize_film (nevents ntraj : nat) (spot : R) (sample_diameter : option R)
  (theta_data phi_data : option (list R)) (tmin tmax pmin pmax n_medium n_sample : R)
  (ux uy ut up : nat -> R) : result (list start) :=
  match sample_diameter with
  | Some _ => Err ValueError
  | None =>
      let check d := match d with
                     | None => false
                     | Some l => negb (Nat.eqb (length l) ntraj) end in
      if check theta_data then Err ValueError
      else if check phi_data then Err ValueError
      else
        let theta i := match theta_data with
                       | Some l => nth i l 0 | None => uniform tmin tmax (ut i) end in
        let phi i := match phi_data with
                     | Some l => nth i l 0 | None => uniform pmin pmax (up i) end in
        Ok (map (fun i =>
              ((ux i * spot, uy i * spot, 0),
               entry_dir (theta i) (cos (phi i)) (sin (phi i)) n_medium n_sample,
               repeat 1 nevents)) (seq 0 ntraj))
  end.

(** structcol/montecarlo.py:715-728 position of a sphere launch from the two
    draws.  A spot wider than the sphere makes the root NaN; the model is used
    for spot <= diameter only. *)
Definition sphere_start_pos (spot radius ur uth : R) : vec :=
  let r := sqrt ur * spot / 2 in
  let th := 2 * PI * uth in
  let x := r * cos th in
  let y := r * sin th in
  (x, y, radius - sqrt (radius ^ 2 - x ^ 2 - y ^ 2)).

(** structcol/montecarlo.py:731-736 inward normal at the launch point. *)
Definition sphere_neg_normal (radius : R) (p : vec) : vec :=
  let m := sqrt (vx p ^ 2 + vy p ^ 2 + (vz p - radius) ^ 2) in
  (- vx p / m, - vy p / m, - (vz p - radius) / m).

(** structcol/montecarlo.py:739-757 launch direction for a sphere: theta from
    the normal's z component, cosphi = nx/sin(theta) (0/0 on the axis: NaN). *)
Definition sphere_entry_dir (radius : R) (p : vec) (n_medium n_sample : R) : option vec :=
  let nn := sphere_neg_normal radius p in
  let theta := acos (vz nn) in
  if Reqb (sin theta) 0 then None
  else entry_dir theta (vx nn / sin theta) (vy nn / sin theta) n_medium n_sample.

(** structcol/montecarlo.py:707-757: [initialize(boundary='sphere')] without
    coarse roughness. *)
Definition initialize_sphere (nevents ntraj : nat) (spot : R) (sample_diameter : option R)
  (n_medium n_sample : R) (ur uth : nat -> R) : result (list start) :=
  match sample_diameter with
  | None => Err ValueError
  | Some d =>
      Ok (map (fun i =>
            let p := sphere_start_pos spot (d / 2) (ur i) (uth i) in
            (p, sphere_entry_dir (d / 2) p n_medium n_sample, repeat 1 nevents))
          (seq 0 ntraj))
  end.

(** structcol/montecarlo.py:1488-1493 rotation of the axes about y by theta_a. *)
Definition rot_y (theta_a : R) (k : vec) : vec :=
  (cos theta_a * vx k - sin theta_a * vz k, vy k,
   sin theta_a * vx k + cos theta_a * vz k).

(** structcol/montecarlo.py:1407-1552 [coarse_roughness_enter], one trajectory
    with incident direction [k0] and sampled facet angle [theta_a]:
    (refracted direction, kz0_rot, reflected direction).  The code returns
    only the z component of the last one (kz0_refl).  NaN when the refraction
    is. *)
Definition rough_enter1 (k0 : vec) (theta_a n_medium n_sample : R)
  : option vec * R * vec :=
  let kr := rot_y theta_a k0 in
  let m := sqrt (vx kr ^ 2 + vy kr ^ 2 + vz kr ^ 2) in
  let theta_rot := acos (vz kr / m) in
  let phi_rot := acos (vx kr / m) in
  let refr := match refraction theta_rot n_medium (Rabs n_sample) with
              | None => None
              | Some t =>
                  Some (rot_y (2 * PI - theta_a)
                          (sin t * cos phi_rot, sin t * sin phi_rot, cos t))
              end in
  let refl := rot_y (2 * PI - theta_a) (vx kr, vy kr, - vz kr) in
  (refr, vz kr, refl).

(** structcol/montecarlo.py:1462-1464: spheres are rejected. *)
Inductive boundary := film | sphere.
Definition coarse_roughness_enter (b : boundary) (k0s : list vec) (theta_as : list R)
  (n_medium n_sample : R) : result (list (option vec * R * vec)) :=
  match b with
  | sphere => Err ValueError
  | film => Ok (map2 (fun k t => rough_enter1 k t n_medium n_sample) k0s theta_as)
  end.

(** structcol/montecarlo.py:1555-1582 [P_theta_a] (unnormalised facet-slope
    density), for cos(theta_a) <> 0 and r <> 0. *)
Definition P_theta_a (theta_a r : R) : R :=
  (sin theta_a / r ^ 2 / (cos theta_a) ^ 3) * exp (- (tan theta_a) ^ 2 / (2 * r ^ 2)).

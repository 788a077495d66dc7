(** Model of the small numerical helpers of structcol/phase_func_sphere.py and
    structcol/structure.py that the other files leave out: [conv_circ],
    [calc_directions], [radial_dist_py], [field_phase_py].  No proofs in this
    file. *)
From Verif Require Export Num Spec M_init M_montecarlo M_detector M_structure M_scat.
From Coquelicot Require Import Complex.
Open Scope R_scope.

(** numpy's discrete Fourier transform and its inverse. *)
Definition cis (t : R) : C := (cos t, sin t).
Definition fft (s : list C) : list C :=
  let n := length s in
  map (fun k => Csum (map (fun j => Cmult (nth j s (RtoC 0)) (cis (- (2 * PI * INR (j * k) / INR n)))) (seq 0 n)))
      (seq 0 n).
Definition ifft (s : list C) : list C :=
  let n := length s in
  map (fun k => Cdiv (Csum (map (fun j => Cmult (nth j s (RtoC 0)) (cis (2 * PI * INR (j * k) / INR n))) (seq 0 n)))
                     (RtoC (INR n)))
      (seq 0 n).

(** structcol/phase_func_sphere.py:78-84 [conv_circ].  numpy's fft raises
    ValueError for an empty array; arrays of different lengths cannot be
    multiplied (ValueError) unless one has length 1. *)
Definition conv_circ (signal ker : list R) : result (list R) :=
  let F := fft (map RtoC signal) in
  let G := fft (map RtoC ker) in
  match length signal, length ker with
  | O, _ | _, O => Err ValueError
  | n, m =>
      if Nat.eqb n m then Ok (map fst (ifft (map2 Cmult F G)))
      else if Nat.eqb m 1 then Ok (map fst (ifft (map (fun a => Cmult a (nth 0 G (RtoC 0))) F)))
      else if Nat.eqb n 1 then Ok (map fst (ifft (map (fun b => Cmult (nth 0 F (RtoC 0)) b) G)))
      else Err ValueError
  end.

(** [np.argmin]: the first smallest entry. *)
Fixpoint argmin_from (best : nat) (m : R) (i : nat) (l : list R) : nat :=
  match l with
  | [] => best
  | x :: t => if Rltb x m then argmin_from i x (S i) t else argmin_from best m (S i) t
  end.
Definition argmin (l : list R) : nat :=
  match l with [] => O | x :: t => argmin_from 0 x 1 t end.

(** [scipy.spatial.distance.cdist], one pair. *)
Definition distance (a b : vec) : R :=
  sqrt ((vx a - vx b) ^ 2 + (vy a - vy b) ^ 2 + (vz a - vz b) ^ 2).

(** structcol/phase_func_sphere.py:383-421 [calc_directions]: for every sampled
    pair of angles the direction [k1] of the exit point nearest to it.  An empty
    array of exit points has no smallest distance (ValueError); fewer directions
    than exit points may lead to an IndexError. *)
Definition sample_point (radius theta phi : R) : vec :=
  (radius * cos phi * sin theta, radius * sin phi * sin theta, radius * cos theta).
Definition calc_directions (samples : list (R * R)) (exits k1 : list vec) (radius : R) : result (list vec) :=
  match exits with
  | [] => match samples with [] => Ok [] | _ => Err ValueError end
  | _ =>
      let ind := map (fun a => argmin (map (distance (sample_point radius (fst a) (snd a))) exits)) samples in
      if existsb (fun i => Nat.leb (length k1) i) ind then Err IndexError
      else Ok (map (fun i => nth i k1 vzero) ind)
  end.

(** structcol/structure.py:475-496 [spherical_FT], [inverse_spherical_FT]: sums
    over the grid points [r] (of the function values [f]) at one [k]. *)
Definition spherical_FT (f r : list R) (dr k : R) : R :=
  4 * PI * Rsum (map2 (fun x fx => x * sin (k * x) * fx * dr) r f) / k.
Definition inverse_spherical_FT (ff k : list R) (dk r : R) : R :=
  Rsum (map2 (fun q fq => q * sin (q * r) * fq * dk) k ff) / r / (2 * PI ^ 2).

(** structcol/structure.py:432-471: the values of g at the grid points
    r = 0.005, 0.010, ..., 2048*0.005 (the denominators of line 454 are assumed
    to be non-zero).  [cc] is the direct correlation function of M_structure. *)
Definition rd_n : nat := 2048.
Definition rd_dr : R := 5 / 1000.
Definition rd_r : list R := map (fun i => INR i * rd_dr) (seq 1 rd_n).
Definition rd_dk : R := 1 / (INR rd_n * rd_dr).
Definition rd_k : list R := map (fun i => INR i * rd_dk) (seq 1 rd_n).
Definition rd_h (phi : R) : R -> R :=
  let rho := 6 / PI * phi in
  let c_direct := map (fun r => cc r phi) rd_r in
  let ft_h := map (fun k => let c := spherical_FT c_direct rd_r rd_dr k in c / (1 - rho * c)) rd_k in
  inverse_spherical_FT ft_h rd_k rd_dk.
Definition rd_g (phi r : R) : R := if Rleb 1 r then rd_h phi r + 1 else 0.

(** structcol/structure.py:410-473 [radial_dist_py]; [spline] is scipy's
    InterpolatedUnivariateSpline through the given points. *)
Definition radial_dist_py (spline : list (R * R) -> R -> R) (phi : R) (x : list R) : list R :=
  map (spline (map (fun r => (r, rd_g phi r)) rd_r)) x.

(** structcol/structure.py:365-408 [field_phase_py], one value of qd; [g] is
    [radial_dist_py phi r_d]; [us] are the uniform draws behind rng.choice (so n
    is their number; 1/n raises ZeroDivisionError for n = 0). *)
Fixpoint sample_all (p : list num) (r_d : list R) (us : list R) : result (list R) :=
  match us with
  | [] => Ok []
  | u :: t => bind (choice p u) (fun i => bind (sample_all p r_d t) (fun l => Ok (nth i r_d 0 :: l)))
  end.
Definition field_phase_py (g r_d : list R) (us : list R) (qd : R) : result C :=
  let p := map (fun x => ndiv x (Rsum g)) g in
  bind (sample_all p r_d us) (fun r_samp =>
  match us with
  | [] => Err ZeroDivisionError
  | _ => Ok (Cmult (RtoC (1 / INR (length us))) (Csum (map (fun r => cis (qd * r)) r_samp)))
  end).

(** structcol/structure.py:345-362 [phase_factor], one value of qd; [j0] is
    scipy.special.jv(0, .), [g] is [radial_dist_py phi r_d]. *)
Definition phase_factor (j0 : R -> R) (g r_d : list R) (phi qd : R) : R :=
  let rho := 3 * phi / (4 * PI) in
  let bessel := map (fun r => rho * 4 * PI * r ^ 2 * PI * j0 (qd * r)) r_d in
  trapezoid (map2 Rmult bessel g) r_d.

(** Model of structcol/phase_func_sphere.py (bulk films of structured spheres).
    No proofs here.  Not modelled: plotting, the phi-dependent branch of
    calc_pdf, calc_directions and conv_circ.  Lengths are plain numbers in one
    unit; arrays over trajectories are lists of equal length. *)
From Verif Require Export Num Spec M_init M_montecarlo M_detector M_reflection.
Open Scope R_scope.

(** structcol/phase_func_sphere.py:33-76 [get_exit_pos]. *)
Definition get_exit_pos (norm_refl norm_trans : list vec) (radius : R) : list vec :=
  map2 (fun nr nt => let n := vadd nt nr in (vx n * radius, vy n * radius, vz n * radius))
       norm_refl norm_trans.

(** structcol/phase_func_sphere.py:479-504 [calc_d_avg]; positive arguments. *)
Definition sphere_density (volume_fraction radius : R) : R :=
  volume_fraction / (4 / 3 * PI * radius ^ 3).
Definition calc_d_avg (volume_fraction radius : R) : R :=
  2 * Rpower (3 / (4 * PI * sphere_density volume_fraction radius)) (1 / 3).

(** structcol/phase_func_sphere.py:506-601 [calc_mu_scat_abs]: (mu_scat,
    mu_abs); [k] is the imaginary part of the matrix index. *)
Definition calc_mu_scat_abs (refl_per_traj trans_per_traj : list R) (trans_indices : list nat)
  (volume_fraction radius k wavelength : R) : R * R :=
  let nd := sphere_density volume_fraction radius in
  let tot_abs := (1 - Rsum (map2 Rplus refl_per_traj trans_per_traj)) * PI * radius ^ 2 in
  let trans_scat := map2 (fun w i => if Nat.eqb i 1 then 0 else w) trans_per_traj trans_indices in
  let tot_scat := Rsum (map2 Rplus refl_per_traj trans_scat) * 2 * PI * radius ^ 2 in
  let mu_abs_matrix := 4 * PI * k / wavelength in
  (nd * tot_scat, nd * tot_abs + mu_abs_matrix * (1 - volume_fraction)).

(** Flags 0/1 for non-zero entries ([a[a != 0] = 1]). *)
Definition flag (i : nat) : nat := if Nat.eqb i 0 then 0%nat else 1%nat.
Definition rflag (x : R) : R := if Reqb x 0 then 0 else 1.
Definition nonzero (l : list R) : list R := filter (fun x => negb (Reqb x 0)) l.
(** [trans_indices_scat], lines 163-164. *)
Definition scat_index (i : nat) : nat := if Nat.eqb i 1 then 0%nat else i.

(** structcol/phase_func_sphere.py:169-195: the polar angles of the exits, from
    [kz] (one list over events per trajectory) or from the exit positions. *)
Definition pdf_thetas (z : list R) (radius : R) (refl_per_traj trans_per_traj : list R)
  (refl_indices trans_indices : list nat) (kz : option (list (list R))) : list R :=
  let ts := map scat_index trans_indices in
  match kz with
  | Some cols => map acos (nonzero (select_all cols (map2 Nat.add refl_indices ts)))
  | None =>
      let rw := map2 (fun w i => rflag (w * INR (flag i))) refl_per_traj refl_indices in
      let tw := map2 (fun w i => rflag (w * INR (flag i))) trans_per_traj ts in
      map (fun x => acos (x / radius)) (nonzero (map2 Rmult z (map2 Rplus rw tw)))
  end.
(** Lines 197-211: the weights of the scattered exits. *)
Definition pdf_weights (refl_per_traj trans_per_traj : list R) (refl_indices trans_indices : list nat)
  : list R :=
  nonzero (map2 Rplus
    (map2 (fun w i => w * INR (flag i)) refl_per_traj refl_indices)
    (map2 (fun w i => w * INR (flag i)) trans_per_traj (map scat_index trans_indices))).

(** scipy.stats.gaussian_kde in one dimension with weights and bandwidth [h]:
    ValueError unless there is one weight per data point. *)
Definition gaussian (h u : R) : R := exp (- (u / h) ^ 2 / 2) / (h * sqrt (2 * PI)).
Definition gaussian_kde (h : R) (data weights : list R) : result (R -> R) :=
  if negb (Nat.eqb (length data) (length weights)) then Err ValueError
  else Ok (fun x => Rsum (map2 (fun d w => w / Rsum weights * gaussian h (x - d)) data weights)).

(** structcol/phase_func_sphere.py:86-276 [calc_pdf] for phi_dependent=False,
    plot=False.  [bw] is the bandwidth scipy derives from the data and the
    weights.  Result: (the pdf on 200 angles or NaN, refl_indices after the
    call: they are overwritten in place, line 178 or 198). *)
Definition pdf_angles : list R := linspace (1 / 100) PI 200.
Definition calc_pdf (bw : list R -> list R -> R) (z : list R) (radius : R)
  (refl_per_traj trans_per_traj : list R) (refl_indices trans_indices : list nat)
  (kz : option (list (list R))) : result (option (list num) * list nat) :=
  let thetas := pdf_thetas z radius refl_per_traj trans_per_traj refl_indices trans_indices kz in
  let weights := pdf_weights refl_per_traj trans_per_traj refl_indices trans_indices in
  let nu := map (fun t => (cos t + 1) / 2) thetas in
  let nu_edge := map Ropp nu ++ nu ++ map (fun x => - x + 2) nu in
  let w_edge := weights ++ weights ++ weights in
  let after := map flag refl_indices in
  match nu_edge with
  | [] => Ok (None, after)
  | _ =>
      bind (gaussian_kde (bw nu_edge w_edge) nu_edge w_edge) (fun pdf =>
        Ok (Some (normalise (map (fun t => pdf ((cos t + 1) / 2)) pdf_angles)), after))
  end.

(** structcol/phase_func_sphere.py:602-702 [calc_scat_bulk]:
    (p, mu_scat, mu_abs, refl_indices after the call). *)
Definition calc_scat_bulk (bw : list R -> list R -> R) (refl_per_traj trans_per_traj : list R)
  (refl_indices trans_indices : list nat) (norm_refl norm_trans : list vec)
  (volume_fraction diameter k wavelength : R) (kz : option (list (list R)))
  : result (option (list num) * R * R * list nat) :=
  let radius := diameter / 2 in
  let '(mu_scat, mu_abs) := calc_mu_scat_abs refl_per_traj trans_per_traj trans_indices
                              volume_fraction radius k wavelength in
  let z := map vz (get_exit_pos norm_refl norm_trans radius) in
  bind (calc_pdf bw z radius refl_per_traj trans_per_traj refl_indices trans_indices kz)
    (fun o => Ok (fst o, mu_scat, mu_abs, snd o)).

(** structcol/phase_func_sphere.py:704-734 [size_distribution] (not
    normalised); positive diameters. *)
Definition size_distr (factorial : R -> R) (diameters : list R) (mean t : R) : list R :=
  if Rleb t 100 then map (schulz factorial mean t) diameters
  else map (narrow mean t) diameters.

(** [np.argmin] of a non-empty real array: the first smallest entry. *)
Fixpoint Rmin_from (m : R) (l : list R) : R :=
  match l with [] => m | x :: t => Rmin_from (Rmin m x) t end.
Fixpoint index_eq (m : R) (l : list R) : nat :=
  match l with [] => 0%nat | x :: t => if Reqb x m then 0%nat else S (index_eq m t) end.
Definition Rargmin (l : list R) : result nat :=
  match l with [] => Err ValueError | x :: t => Ok (index_eq (Rmin_from x t) l) end.
Definition Rargmax (l : list R) : result nat := Rargmin (map Ropp l).

(** [list.sort], [np.unique]. *)
Fixpoint insert (x : R) (l : list R) : list R :=
  match l with [] => [x] | y :: t => if Rleb x y then x :: l else y :: insert x t end.
Definition sort (l : list R) : list R := fold_right insert [] l.
Fixpoint dedup (l : list R) : list R :=
  match l with
  | [] => []
  | x :: t => match t with
              | [] => [x]
              | y :: _ => if Reqb x y then dedup t else x :: dedup t
              end
  end.
Definition unique (l : list R) : list R := dedup (sort l).

(** structcol/phase_func_sphere.py:792-808: one pass of the loop picks, at the
    height [num/denom] of the maximum, the closest point of the lower and of
    the upper half of the table.  The offset 300 (line 803) is fixed. *)
Definition pick_pair (pdf rad : list R) (npts : nat) (num denom : Z) : result (list R) :=
  let level := IZR num / IZR denom * Rmax_list pdf in
  let dist l := map (fun p => Rabs (p - level)) l in
  bind (Rargmin (dist (firstn (npts / 2) pdf))) (fun i1 =>
  bind (Rargmin (dist (skipn (npts / 2) pdf))) (fun i2 =>
  match nth_error rad i1, nth_error rad (300 + i2) with
  | Some r1, Some r2 => Ok [r1; r2]
  | _, _ => Err IndexError end)).
Definition next_level (num denom : Z) : Z * Z :=
  if Z.eqb num 1 then ((2 * denom - 1)%Z, (2 * denom)%Z) else ((num - 2)%Z, denom).
Fixpoint pick_loop (k : nat) (pdf rad : list R) (npts : nat) (num denom : Z) : result (list R) :=
  match k with
  | O => Ok []
  | S k' =>
      bind (pick_pair pdf rad npts num denom) (fun l =>
      let '(n', d') := next_level num denom in
      bind (pick_loop k' pdf rad npts n' d') (fun l' => Ok (l ++ l')))
  end.

(** structcol/phase_func_sphere.py:736-836 [calc_diam_list] with plot=False.
    The table has positive entries, so [Rmax_list] is its maximum. *)
Definition calc_diam_list (factorial : R -> R) (num_diam : nat) (diameter_mean pdi : R)
  (equal_spacing : bool) (num_pdf_points : nat) : result (list R) :=
  let rm := diameter_mean / 2 in
  let diam_range := linspace 1 (4 * rm) num_pdf_points in
  bind
    (if equal_spacing then
       let half := Z.to_nat (M_montecarlo.round_half_even ((INR num_diam + 1) / 2)) in
       Ok (unique (linspace (rm / 100) rm half ++ linspace rm (2 * rm) half))
     else
       let t := (1 - pdi ^ 2) / pdi ^ 2 in
       let pdf := size_distr factorial diam_range (2 * rm) t in
       let rad := map (fun d => d / 2) diam_range in
       bind (Rargmax pdf) (fun im =>
       bind (pick_loop (num_diam / 2) pdf rad num_pdf_points 1 2) (fun l =>
       Ok (sort (nth im rad 0 :: l)))))
    (fun rad_list => Ok (map (fun r => 2 * r) rad_list)).

(** structcol/phase_func_sphere.py:838-884 [sample_diams]: the probabilities
    handed to [rng.choice]. *)
Definition diam_prob (factorial : R -> R) (pdi : R) (diam_list : list R) (diam_mean : R) : list num :=
  normalise (size_distr factorial diam_list diam_mean ((1 - pdi ^ 2) / pdi ^ 2)).

(** structcol/phase_func_sphere.py:923-1009 [sample_angles_step_poly] for one
    scattering event whose sampled parameter is [v]: (theta, step).  [u j] and
    [c j] are the uniform draw and the index chosen among the angles, if the
    event belongs to type [j]; a later type with the same parameter overwrites
    an earlier one; without a matching type both stay 0. *)
Definition poly_angles (nang : nat) : list R := linspace (1 / 100) PI nang.
Definition poly_prob (p : list R) : list num :=
  normalise (map2 (fun x t => x * sin t * 2 * PI) p (poly_angles (length p))).
Definition sample_poly (nang : nat) (mu param_list : list R) (u : nat -> R) (c : nat -> nat) (v : R)
  : R * R :=
  fold_left (fun (acc : R * R) (jm : nat * (R * R)) =>
    let '(j, (m, q)) := jm in
    if Reqb v q then (nth (c j) (poly_angles nang) 0, - ln (1 - u j) * (1 / m)) else acc)
    (combine (seq 0 (length param_list)) (combine mu param_list)) (0, 0).

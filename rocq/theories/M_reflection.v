(** Model of the single-scattering part of structcol/model.py.  No proofs in
    this file.

    Mie theory (the package pymie) is not modelled: the angular distribution
    [mie.calc_ang_dist] and the absorption cross section
    [mie.calc_cross_sections(...)[2]] are arguments.  Lengths are plain numbers
    in one unit, angles are radians. *)
From Verif Require Export Num M_init M_model M_montecarlo M_detector M_structure M_refractive_index.
Open Scope R_scope.

(** structcol/model.py:1126-1144 [_integrate_cross_section].  The factor is an
    array over the angles; a scalar factor is a constant array. *)
Definition integrate_cross_section (cross_section factor angles : list R) (azi_angle_range : R) : R :=
  azi_angle_range
  * trapezoid (map3 (fun c f t => c * f * sin t) cross_section factor angles) angles.

(** [d**t] for d >= 0. *)
Definition npow (d t : R) : R :=
  if Reqb d 0 then (if Reqb t 0 then 1 else 0) else Rpower d t.

(** structcol/model.py:1082-1124 [size_distribution].  [factorial] is
    scipy.special.factorial at a real argument (the Gamma function at t+1).
    NaN where the norm, or in the Gaussian branch a diameter, is 0. *)
Definition schulz (factorial : R -> R) (mean t d : R) : R :=
  Rpower ((t + 1) / mean) (t + 1) * npow d t / factorial t * exp (- d / mean * (t + 1)).
Definition narrow (mean t d : R) : R :=
  let std_dev := d / sqrt (t + 1) in
  exp (- (d - mean) ^ 2 / (2 * std_dev ^ 2)) / sqrt (2 * PI * std_dev ^ 2).
Definition size_distribution (factorial : R -> R) (diameter_range : list R) (mean t : R) : list num :=
  if Rleb t 100 then
    let s := map (schulz factorial mean t) diameter_range in
    let norm := trapezoid s diameter_range in
    map (fun x => ndiv x norm) s
  else if existsb (fun d => Reqb d 0) diameter_range then map (fun _ => None) diameter_range
  else
    let s := map (narrow mean t) diameter_range in
    let norm := trapezoid s diameter_range in
    map (fun x => ndiv x norm) s.

(** structcol/model.py:1240-1241 [_number_density]. *)
Definition number_density (volume_fraction radius : R) : R :=
  3 * volume_fraction / (4 * PI * radius ^ 3).

(** [np.max] of an array of non-negative lengths. *)
Definition Rmax_list (l : list R) : R := fold_right Rmax 0 l.

(** structcol/model.py:215-227, the number density of [reflection]. *)
Definition reflection_rho (volume_fraction : R) (radius radius2 : list R)
  (concentration : option (R * R)) : R :=
  let r := Rmax_list radius in
  let r2 := Rmax_list radius2 in
  match concentration with
  | None => number_density volume_fraction r
  | Some (c0, c1) =>
      if Reqb c0 0 || Reqb c1 0 then number_density volume_fraction r
      else
        let term1 := 1 / (r ^ 3 + r2 ^ 3 * c1 / c0) in
        let term2 := 1 / (r2 ^ 3 + r ^ 3 * c0 / c1) in
        3 * volume_fraction / (4 * PI) * (term1 + term2) end.

(** structcol/model.py:229-237, volume fraction of each layer of a core-shell
    particle; [prev] is the inner radius of the first layer. *)
Fixpoint layer_fractions (volume_fraction r_out prev : R) (radius : list R) : list R :=
  match radius with
  | [] => []
  | r :: t => (r ^ 3 - prev ^ 3) / r_out ^ 3 * volume_fraction
              :: layer_fractions volume_fraction r_out r t end.
Definition vf_array (volume_fraction : R) (radius : list R) : list R :=
  layer_fractions volume_fraction (last radius 0) 0 radius.

(** structcol/model.py:239-251: the index used for the particles' surroundings
    and, if different, the one for the structure factor.  With
    effective_medium_form=True and effective_medium_struct=False no branch
    assigns n_sample, and its use at line 254 or 261 raises UnboundLocalError (a
    NameError). *)
Definition choose_sample (neff : result C) (n_matrix : C) (em_struct em_form : bool)
  : result (C * option C) :=
  match em_form, em_struct with
  | true, true => bind neff (fun z => Ok (z, None))
  | false, true => bind neff (fun z => Ok (n_matrix, Some z))
  | false, false => Ok (n_matrix, None)
  | true, false => Err NameError
  end.

(** [structure_type]: a name, a dictionary with its 'name' and (if present)
    'sigma', None, or anything else. *)
Inductive structure_type := S_name (s : string) | S_dict (name : string) (sigma : option R)
                          | S_none | S_other.

(** structcol/model.py:753-932 [polydisperse_form_factor] in the scattering
    plane for a non-absorbing medium.  [ang x theta] is the angular
    distribution of one sphere of size parameter [x]; [size_par d] the size
    parameter of diameter [d].  One polarisation is picked by [pol]. *)
Definition pdi_t (pdi : R) : R := Rabs (1 / pdi_floor pdi ^ 2) - 1.
Definition diameter_grid (mean t : R) : list R :=
  let three_std := 3 * mean / sqrt (t + 1) in
  let lo := if Rltb (mean - three_std) 0 then 1e-6 else mean - three_std in
  linspace lo (mean + three_std) 50.
(** Lines 831-925 for one mean diameter and one angle. *)
Definition poly_integral (factorial : R -> R) (f : R -> R) (mean t : R) : num :=
  let grid := diameter_grid mean t in
  match get_all (size_distribution factorial grid mean t) with
  | None => None
  | Some w => Some (trapezoid (map2 Rmult (map f grid) w) grid) end.
(** Lines 831-931: the species are added up with their concentrations. *)
Fixpoint poly_form (factorial : R -> R) (f : R -> R) (l : list species) : num :=
  match l with
  | [] => Some 0
  | s :: l' => nmap2 (fun a b => a * sp_c s + b)
                 (poly_integral factorial f (sp_d s) (pdi_t (sp_pdi s)))
                 (poly_form factorial f l') end.

(** structcol/model.py:549-750 [differential_cross_section] for a
    non-absorbing medium in the scattering plane, one angle.  [nlayers] is the
    number of refractive-index ratios; [ang x theta] the Mie angular
    distribution for the list of size parameters [x]; [poly] is (species,
    wavelength, n_matrix) when diameters, concentration, pdi, wavelen and
    n_matrix are all given. *)
Definition size_parameter (wavelen n_matrix radius : R) : R := 2 * PI * n_matrix * radius / wavelen.
Definition qd_of (x : list R) (theta : R) : R :=
  4 * Rmax_list (map Rabs x) * sin (theta / 2).
Definition poly_args := option (list species * R * R).
Definition form_part (factorial : R -> R) (ang : list R -> R -> R * R) (nlayers : nat) (x : list R)
  (form_type : option string) (poly : poly_args) (theta : R) : result (num * num) :=
  match form_type with
  | None => Ok (Some 1, Some 1)
  | Some ft =>
      if String.eqb ft "sphere" then
        let f := ang x theta in Ok (Some (fst f), Some (snd f))
      else if String.eqb ft "polydisperse" then
        match poly with
        | None => Err ValueError
        | Some (l, wavelen, n_matrix) =>
            if Nat.ltb 1 nlayers then Err ValueError
            else
              let f d := ang [size_parameter wavelen n_matrix (d / 2)] theta in
              Ok (poly_form factorial (fun d => fst (f d)) l,
                  poly_form factorial (fun d => snd (f d)) l) end
      else Err ValueError end.
Definition structure_part (nlayers : nat) (volume_fraction qd : R) (st : structure_type)
  (poly : poly_args) (s_data : option (list (R * R))) : result num :=
  match st with
  | S_none => Ok (Some 1)
  | S_other => Err ValueError
  | S_dict name sigma =>
      if String.eqb name "paracrystal" then
        match sigma with
        | None => Err KeyError
        | Some s => Ok (factor_para qd volume_fraction s) end
      else Err ValueError
  | S_name s =>
      if String.eqb s "glass" then Ok (factor_py qd volume_fraction)
      else if String.eqb s "paracrystal" then Ok (factor_para qd volume_fraction 0.15)
      else if String.eqb s "data" then
        match s_data with
        | None => Err TypeError
        | Some t => bind (factor_data t qd) (fun v => Ok (Some v)) end
      else if String.eqb s "polydisperse" then
        match poly with
        | None => Err ValueError
        | Some (l, _, _) =>
            if Nat.ltb 1 nlayers then Err ValueError
            else Ok (Some (factor_poly (qd / sp_d (nth 0 l (mkSp 0 0 0))) volume_fraction l)) end
      else Err ValueError end.
Definition differential_cross_section (factorial : R -> R) (ang : list R -> R -> R * R)
  (nlayers : nat) (x : list R) (x_eff : option (list R)) (volume_fraction : R)
  (st : structure_type) (form_type : option string) (poly : poly_args)
  (s_data : option (list (R * R))) (theta : R) : result (num * num) :=
  bind (form_part factorial ang nlayers x form_type poly theta) (fun f =>
  let qd := qd_of (match x_eff with Some xe => xe | None => x end) theta in
  bind (structure_part nlayers volume_fraction qd st poly s_data) (fun s =>
  Ok (nmap2 Rmult s (fst f), nmap2 Rmult s (snd f)))).

(** The same at every angle of an array; the first error is raised. *)
Fixpoint all_angles {A} (f : R -> result A) (angles : list R) : result (list A) :=
  match angles with
  | [] => Ok []
  | t :: ts => bind (f t) (fun a => bind (all_angles f ts) (fun l => Ok (a :: l))) end.

(** Arguments of [reflection] after the material properties are fixed. *)
Record refl_args := mk_rargs {
  a_nmedium : R; a_nsample : R; a_wavelen : R; a_rho : R; a_cabs : R;
  a_thickness : option R; a_tmin : R; a_tmax : R; a_pmin : R; a_pmax : R;
  a_inc : R; a_num : nat; a_small : R }.

(** structcol/model.py:279-309, refraction of a detector angle into the sample
    (a_nsample > 0 is its own absolute value). *)
Definition refracted_theta (n_medium n_sample theta : R) : R :=
  let s := sin (PI - theta) * n_medium / Rabs n_sample in
  if Rleb 1 s then PI / 2 else PI - asin s.

(** structcol/model.py:311-318. *)
Definition detected_angles (A : refl_args) : list R :=
  linspace (refracted_theta (a_nmedium A) (a_nsample A) (a_tmin A))
           (refracted_theta (a_nmedium A) (a_nsample A) (a_tmax A)) (a_num A).
Definition total_angles (A : refl_args) : list R := linspace (0 + a_small A) PI (a_num A).

(** The five returned numbers. *)
Record refl_out := mk_rout {
  r_unpol : num; r_par : num; r_perp : num; r_asym : num; r_lstar : num }.
Definition nan_out : refl_out := mk_rout None None None None None.

(** structcol/model.py:470-544, non-absorbing sample.  [dpar], [dperp] are the
    differential cross sections at the detected angles, [spar], [sperp] at the
    total angles; [tpar], [tperp] the transmissions at the detected angles;
    [t0], [r0] the Fresnel coefficients at the entrance. *)
Definition reflection_core (A : refl_args) (t0 r0 : R * R) (tpar tperp dpar dperp spar sperp : list R)
  : refl_out :=
  let k := 2 * PI * a_nsample A / a_wavelen A in
  let k2 := Rabs k ^ 2 in
  let angles := detected_angles A in
  let angles_tot := total_angles A in
  let azi := a_pmax A - a_pmin A in
  let det cs tr := integrate_cross_section cs (map (fun t => t / k2) tr) angles azi in
  let tot cs w := integrate_cross_section cs (map (fun t => w t / k2) angles_tot) angles_tot (2 * PI) in
  let cscat_detected_par := det dpar tpar in
  let cscat_detected_perp := det dperp tperp in
  let cscat_total := (tot spar (fun _ => 1) + tot sperp (fun _ => 1)) / 2 in
  let asymmetry := nmap (fun a => a / 2)
                     (ndiv (tot spar (fun t => cos t * 1) + tot sperp (fun t => cos t * 1)) cscat_total) in
  let lstar := nbind asymmetry (fun g =>
               nbind (ndiv 1 (1 - g)) (fun a =>
               nbind (ndiv a (a_rho A)) (fun b => ndiv b cscat_total))) in
  let cext := cscat_total + a_cabs A in
  let factor := match a_thickness A with
                | None => Some 1
                | Some L => ndiv ((1 - exp (- a_rho A * cext * L)) * cscat_total) cext end in
  let reflected t r d :=
    nbind factor (fun f => nbind (ndiv (t * d) cext) (fun a => Some (a * f + r))) in
  let par := reflected (fst t0) (fst r0) cscat_detected_par in
  let perp := reflected (snd t0) (snd r0) cscat_detected_perp in
  mk_rout (nmap2 (fun a b => (a + b) / 2) par perp) par perp asymmetry lstar.

(** structcol/model.py:271-544 for a non-absorbing sample: Fresnel
    coefficients, angle grids, differential cross sections [dcs], integrals.
    NaN anywhere in a cross section makes every result NaN. *)
Definition reflection_real (A : refl_args) (dcs : R -> result (num * num)) : result refl_out :=
  bind (fresnel_transmission (a_nmedium A) (a_nsample A) [a_inc A]) (fun t0 =>
  bind (fresnel_reflection (a_nmedium A) (a_nsample A) [a_inc A]) (fun r0 =>
  bind (fresnel_transmission (a_nsample A) (a_nmedium A)
          (map (fun t => PI - t) (detected_angles A))) (fun tr =>
  bind (all_angles dcs (detected_angles A)) (fun d =>
  bind (all_angles dcs (total_angles A)) (fun s =>
  match get_all (map fst d), get_all (map snd d), get_all (map fst s), get_all (map snd s) with
  | Some dpar, Some dperp, Some spar, Some sperp =>
      Ok (reflection_core A (nth 0 (fst t0) 0, nth 0 (snd t0) 0) (nth 0 (fst r0) 0, nth 0 (snd r0) 0)
            (fst tr) (snd tr) dpar dperp spar sperp)
  | _, _, _, _ => Ok nan_out
  end))))).

(** Arguments of [reflection] itself. *)
Record refl_in := mk_rin {
  i_nparticle : list C; i_nmatrix : C; i_nmedium : R; i_wavelen : R; i_radius : list R;
  i_vf : R; i_radius2 : option (list R); i_conc : option (R * R); i_pdi : option (R * R);
  i_thickness : option R; i_tmin : R; i_tmax : R; i_pmin : R; i_pmax : R; i_inc : R;
  i_num : nat; i_small : R; i_structure : structure_type; i_form : option string;
  i_mg : bool; i_sdata : option (list (R * R)); i_emstruct : bool; i_emform : bool }.

(** The species handed to the polydisperse functions: [mean_diameters] (lines
    211-213) is all radii of both kinds, doubled; concentration and pdi have
    two entries, so the model keeps the first two diameters (exact for
    single-layer particles, the only ones the polydisperse code accepts). *)
Definition refl_poly (I : refl_in) (n_sample : R) : poly_args :=
  let r2 := match i_radius2 I with Some r => r | None => i_radius I end in
  let ds := map (fun r => 2 * r) (i_radius I ++ r2) in
  match i_conc I, i_pdi I with
  | Some (c0, c1), Some (p0, p1) =>
      Some ([mkSp c0 (nth 0 ds 0) p0; mkSp c1 (nth 1 ds 0) p1], i_wavelen I, n_sample)
  | _, _ => None end.

(** structcol/model.py:44-544 [reflection].  [mie_ang m x theta] and [mie_cabs
    m x] are the Mie angular distribution and absorption cross section;
    [absorbing] stands for the branches for a sample index with an imaginary
    part (lines 323-326, 370-468 with complex Fresnel coefficients), which are
    not modelled. *)
Definition reflection (fsolve : (C -> C) -> C) (factorial : R -> R)
  (mie_ang : list C -> list R -> R -> R * R) (mie_cabs : list C -> list R -> R)
  (absorbing : C -> result refl_out) (I : refl_in) : result refl_out :=
  if negb (Nat.eqb (length (i_nparticle I)) (length (i_radius I))) then Err ValueError
  else
    let r2 := match i_radius2 I with Some r => r | None => i_radius I end in
    let rho := reflection_rho (i_vf I) (i_radius I) r2 (i_conc I) in
    let vfs := vf_array (i_vf I) (i_radius I) in
    bind (choose_sample (n_eff fsolve (i_mg I) (i_nparticle I) [i_nmatrix I] vfs)
            (i_nmatrix I) (i_emstruct I) (i_emform I)) (fun ns =>
    let '(n_sample, n_sample_eff) := ns in
    if negb (Reqb (snd n_sample) 0) then absorbing n_sample
    else
      let n := fst n_sample in
      let m := map (fun np => Cdiv np n_sample) (i_nparticle I) in
      let x := map (size_parameter (i_wavelen I) n) (i_radius I) in
      let x_eff := match n_sample_eff with
                   | Some ne => Some (map (fun r => Cmod (Cmult ne (RtoC (size_parameter (i_wavelen I) 1 r))))
                                          (i_radius I))
                   | None => None end in
      reflection_real
        (mk_rargs (i_nmedium I) n (i_wavelen I) rho (mie_cabs m x) (i_thickness I) (i_tmin I) (i_tmax I)
           (i_pmin I) (i_pmax I) (i_inc I) (i_num I) (i_small I))
        (differential_cross_section factorial (mie_ang m) (length m) x x_eff (i_vf I) (i_structure I)
           (i_form I) (refl_poly I n) (i_sdata I))).

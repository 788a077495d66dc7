(** Model of the parts of structcol/montecarlo.py's [calc_scat] and
    [phase_function] for complex refractive indices, and for cartesian
    coordinates (fields=True), with the branches of structcol/model.py's
    [differential_cross_section] and [polydisperse_form_factor] they use.  No
    proofs in this file.

    pymie's intensities in a complex medium and its integrator are arguments;
    lengths are plain numbers in one unit. *)
From Verif Require Export Num M_model M_montecarlo M_structure M_refractive_index M_reflection M_absorbing M_scat.
From Coquelicot Require Import Complex.
Open Scope R_scope.

(** [size_parameter] of pymie for a complex index. *)
Definition csize_parameter (wavelen : R) (n : C) (radius : R) : C :=
  Cmult n (RtoC (size_parameter wavelen 1 radius)).

(** structcol/model.py:831-931 for an absorbing medium, one direction and one
    polarisation: the intensity [f d x] of every sphere of the distribution of
    mean diameter [d] is taken at distance [d]/2 (lines 866-885; both callers
    pass distance = diameters/2). *)
Fixpoint poly_form_at (factorial : R -> R) (f : R -> R -> R) (l : list species) : num :=
  match l with
  | [] => Some 0
  | s :: l' => nmap2 (fun a b => a * sp_c s + b)
                 (poly_integral factorial (f (sp_d s / 2)) (sp_d s) (pdi_t (sp_pdi s)))
                 (poly_form_at factorial f l') end.

(** structcol/model.py:660-700, the form factor in one direction: [ff x kd] are
    the two intensities there of a particle with size parameters [x] at
    (dimensionless) distance [kd]. *)
Definition cplx_form_part (factorial : R -> R) (ff : list C -> C -> R * R) (nlayers : nat) (n k : C)
  (distance : R) (x : list C) (form_type : option string) (poly : poly_args) : result (num * num) :=
  match form_type with
  | None => Ok (Some 1, Some 1)
  | Some ft =>
      if String.eqb ft "sphere" then
        let f := ff x (Cmult k (RtoC distance)) in Ok (Some (fst f), Some (snd f))
      else if String.eqb ft "polydisperse" then
        match poly with
        | None => Err ValueError
        | Some (l, wavelen, _) =>
            if Nat.ltb 1 nlayers then Err ValueError
            else
              let f dist d := ff [csize_parameter wavelen n (d / 2)] (Cmult k (RtoC dist)) in
              Ok (poly_form_at factorial (fun dist d => fst (f dist d)) l,
                  poly_form_at factorial (fun dist d => snd (f dist d)) l) end
      else Err ValueError end.

(** structcol/model.py:549-750 [differential_cross_section] in one direction of
    polar angle [theta], complex-medium branch.  The structure factor uses |x|
    (lines 702-707). *)
Definition cplx_dcs (factorial : R -> R) (ff : list C -> C -> R * R) (nlayers : nat) (n k : C)
  (distance : R) (x : list C) (x_eff : option (list R)) (volume_fraction : R) (st : structure_type)
  (form_type : option string) (poly : poly_args) (s_data : option (list (R * R))) (theta : R)
  : result (num * num) :=
  bind (cplx_form_part factorial ff nlayers n k distance x form_type poly) (fun f =>
  let qd := qd_of (match x_eff with Some xe => xe | None => map Cmod x end) theta in
  bind (structure_part nlayers volume_fraction qd st poly s_data) (fun s =>
  Ok (nmap2 Rmult s (fst f), nmap2 Rmult s (snd f)))).

(** structcol/montecarlo.py:1152-1157: the largest of all radii, unless the
    form factor is polydisperse (then the mean radii, see [poly_form_at]). *)
Definition scat_distance (I : scat_in) : R :=
  Rmax_list (map (fun r => 2 * r) (s_radius I ++ other_radius I)) / 2.

(** structcol/montecarlo.py:1198-1222: (weight, distance) of the surfaces over
    which the cross section is integrated. *)
Definition scat_surfaces (I : scat_in) (form : option string) : list (R * R) :=
  let '(c0, c1) := default_conc (s_conc I) in
  match form with
  | Some ft =>
      if String.eqb ft "polydisperse" then
        [(c0, 2 * nth 0 (s_radius I) 0 / 2); (c1, 2 * nth 0 (other_radius I) 0 / 2)]
      else [(1, scat_distance I)]
  | None => [(1, scat_distance I)] end.

(** structcol/montecarlo.py:1165-1240 [phase_function], scattering plane,
    complex wavenumber: NaN in a cross section makes both results NaN. *)
Definition phase_absorbing (integ : integrator) (parts : list (R * R)) (dcs : R -> result (num * num))
  (angles : list R) : result (list num * num) :=
  bind (all_angles dcs angles) (fun l =>
  match get_all (map fst l), get_all (map snd l) with
  | Some par, Some perp =>
      Ok (phase_function_p par perp, Some (sum_unpol integ parts par perp angles 0 (2 * PI)))
  | _, _ => Ok (map (fun _ => None) angles, None)
  end).

(** structcol/montecarlo.py:963-965: wavenumber, index ratios and size parameters. *)
Definition scat_k (I : scat_in) (n : C) : C := Cmult (RtoC (2 * PI / s_wavelen I)) n.
Definition scat_m (I : scat_in) (n : C) : list C := map (fun np => Cdiv np n) (s_np I).
Definition scat_x (I : scat_in) (n : C) : list C := map (csize_parameter (s_wavelen I) n) (s_radius I).

(** The differential cross section [calc_scat] works with in a medium of
    complex index [n]; [mie m x theta kd] are pymie's intensities. *)
Definition scat_cdcs (factorial : R -> R) (mie : list C -> list C -> R -> C -> R * R) (I : scat_in)
  (form : option string) (st : structure_type) (n : C) (x_eff : option (list R)) (theta : R)
  : result (num * num) :=
  cplx_dcs factorial (fun x kd => mie (scat_m I n) x theta kd) (length (s_np I)) n (scat_k I n)
    (scat_distance I) (scat_x I n) x_eff (s_vf I) st form (scat_poly I (fst n)) (s_sdata I) theta.

(** structcol/montecarlo.py:833-1072 [calc_scat] with fields=False, real and
    complex indices.  [integ k] is pymie's integrator at wavenumber [k].  The
    call for the rough surface has no structure factor, so it does not matter
    that it is given [x_eff] here. *)
Definition calc_scat_any (factorial : R -> R) (mie_ang : list C -> list R -> R -> R * R)
  (mie : list C -> list C -> R -> C -> R * R) (integ : C -> integrator) (I : scat_in) : result scat_out :=
  let x_eff := match scat_medium I with Ok (_, xe) => xe | Err _ => None end in
  let form := match scat_types I with Ok (f, _) => f | Err _ => None end in
  calc_scat factorial mie_ang
    (fun n st => phase_absorbing (integ (scat_k I n)) (scat_surfaces I form)
                   (scat_cdcs factorial mie I form st n x_eff) (linspace (s_min I) PI (s_num I))) I.

(** The differential cross section of [reflection] (structcol/model.py:347-368)
    for a sample of complex index [n], to be used with [reflection_any]. *)
Definition refl_distance (I : refl_in) : R :=
  let r2 := match i_radius2 I with Some r => r | None => i_radius I end in
  Rmax_list (map (fun r => 2 * r) (i_radius I ++ r2)) / 2.
Definition refl_cdcs (fsolve : (C -> C) -> C) (factorial : R -> R) (mie : list C -> list C -> R -> C -> R * R)
  (I : refl_in) (n : C) (theta : R) : result (num * num) :=
  let x_eff := match choose_sample (n_eff fsolve (i_mg I) (i_nparticle I) [i_nmatrix I]
                       (vf_array (i_vf I) (i_radius I))) (i_nmatrix I) (i_emstruct I) (i_emform I) with
               | Ok (_, Some ne) => Some (map (fun r => Cmod (csize_parameter (i_wavelen I) ne r)) (i_radius I))
               | _ => None end in
  let m := map (fun np => Cdiv np n) (i_nparticle I) in
  cplx_dcs factorial (fun x kd => mie m x theta kd) (length m) n (Cmult (RtoC (2 * PI / i_wavelen I)) n)
    (refl_distance I) (map (csize_parameter (i_wavelen I) n) (i_radius I)) x_eff (i_vf I)
    (i_structure I) (i_form I) (refl_poly I (fst n)) (i_sdata I) theta.

(* ------------------------------------------------------------------ *)
(** * fields=True *)

(** numpy's meshgrid and elementwise work on it: one row per polar angle. *)
Fixpoint all_rows {A} (f : R -> R -> result A) (thetas phis : list R) : result (list (list A)) :=
  match thetas with
  | [] => Ok []
  | t :: ts => bind (all_angles (f t) phis) (fun r => bind (all_rows f ts phis) (fun l => Ok (r :: l))) end.
Fixpoint get_rows (l : list (list num)) : option (list (list R)) :=
  match l with
  | [] => Some []
  | r :: l' => match get_all r, get_rows l' with Some a, Some b => Some (a :: b) | _, _ => None end end.

(** structcol/montecarlo.py:1235-1238 on two-dimensional arrays. *)
Definition phase_table (par perp : list (list R)) : list (list num) :=
  let s := map2 (map2 Rplus) par perp in
  let t := Rsum (map Rsum s) in
  map (map (fun x => ndiv x t)) s.

(** pymie's integrator in cartesian coordinates (not modelled): from two tables
    of intensities (rows: polar angles), a distance, polar angles and azimuths
    to the unpolarised cross section. *)
Definition integrator2 := list (list R) -> list (list R) -> R -> list R -> list R -> R.

(** structcol/montecarlo.py:1165-1197 and 1235-1240: [phase_function] in
    cartesian coordinates. *)
Definition phase_cartesian (integ : integrator2) (distance : R) (dcs : R -> R -> result (num * num))
  (thetas phis : list R) : result (list (list num) * num) :=
  bind (all_rows dcs thetas phis) (fun l =>
  match get_rows (map (map fst) l), get_rows (map (map snd) l) with
  | Some par, Some perp => Ok (phase_table par perp, Some (integ par perp distance thetas phis))
  | _, _ => Ok (map (fun _ => map (fun _ => None) phis) thetas, None)
  end).

(** One call of it by [calc_scat]: the complex-medium intensities [mie m x theta
    phi kd] are used whatever the index.  A polydisperse form factor is not
    modelled in these coordinates (the code notes that it does not work):
    [poly_cart]. *)
Definition scat_fields_phase (factorial : R -> R) (mie : list C -> list C -> R -> R -> C -> R * R)
  (integ : C -> integrator2) (poly_cart : result (list (list num) * num)) (I : scat_in) (nphi : nat)
  (form : option string) (st : structure_type) (n : C) (x_eff : option (list R))
  : result (list (list num) * num) :=
  match form with
  | Some "polydisperse"%string => poly_cart
  | _ =>
      phase_cartesian (integ (scat_k I n)) (scat_distance I)
        (fun theta phi =>
           cplx_dcs factorial (fun x kd => mie (scat_m I n) x theta phi kd) (length (s_np I)) n (scat_k I n)
             (scat_distance I) (scat_x I n) x_eff (s_vf I) st form (scat_poly I (fst n)) (s_sdata I) theta)
        (linspace (s_min I) PI (s_num I)) (linspace (s_min I) (2 * PI) nphi)
  end.

Record fields_out := mk_fout { f_p : list (list num); f_mu : num; f_mie : option num; f_muabs : R }.

(** structcol/montecarlo.py:833-1072 [calc_scat] with fields=True and num_phis =
    [nphi]. *)
Definition calc_scat_fields (factorial : R -> R) (mie : list C -> list C -> R -> R -> C -> R * R)
  (integ : C -> integrator2) (poly_cart : result (list (list num) * num)) (I : scat_in) (nphi : nat)
  : result fields_out :=
  bind (scat_medium I) (fun nm =>
  let '(n, x_eff) := nm in
  let rho := scat_rho (s_vf I) (s_radius I) (other_radius I) (s_conc I) in
  bind (scat_types I) (fun ty =>
  let '(form, st) := ty in
  let mu_abs := 4 * PI * snd n / s_wavelen I in
  bind (scat_fields_phase factorial mie integ poly_cart I nphi form st n x_eff) (fun pc =>
  let mu := nmap2 Rmult rho (snd pc) in
  if Rltb 0 (s_fine I) then
    match s_nmatrix I with
    | None => Err ValueError
    | Some n' =>
        bind (scat_fields_phase factorial mie integ poly_cart I nphi form S_none n' None) (fun pc' =>
        Ok (mk_fout (fst pc) mu (Some (nmap2 Rmult rho (snd pc'))) mu_abs)) end
  else Ok (mk_fout (fst pc) mu None mu_abs)))).

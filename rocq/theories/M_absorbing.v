(** Model of the parts of structcol/model.py for absorbing media (complex
    refractive indices).  No proofs in this file. *)
From Verif Require Export Num M_model M_reflection.
From Coquelicot Require Import Complex.
Open Scope R_scope.

(** numpy's order on complex numbers: real parts first, then imaginary ones. *)
Definition Cltb (a b : C) : bool :=
  Rltb (fst a) (fst b) || (Reqb (fst a) (fst b) && Rltb (snd a) (snd b)).
Definition Cleb (a b : C) : bool :=
  Rltb (fst a) (fst b) || (Reqb (fst a) (fst b) && Rleb (snd a) (snd b)).

(** [np.abs(a/b)**2]; None stands for the inf or NaN of a zero denominator. *)
Definition cratio (a b : C) : num :=
  if Reqb (fst b) 0 && Reqb (snd b) 0 then None else Some (Cmod (Cdiv a b) ^ 2).

(** structcol/model.py:1183-1209 for complex (numpy) indices, one angle.
    [casin] is numpy's complex arcsin; the square root is of a modulus, so real.
    Angle pi/2, where the code's cosine is not quite 0, is outside the model's
    domain if a denominator vanishes there. *)
Definition fresnel_cplx1 (casin : C -> C) (n1 n2 : C) (theta : R) : num * num :=
  let ms := Cdiv n2 n1 in
  if Cltb ms (RtoC 1) && Cleb (casin ms) (RtoC theta) then (Some 1, Some 1)
  else
    let n22 := Cmult n2 n2 in
    let n1s := Cmult n1 (RtoC (sin theta)) in
    let root := RtoC (sqrt (Cmod (Cminus n22 (Cmult n1s n1s)))) in
    let c := RtoC (cos theta) in
    (cratio (Cminus (Cmult n1 root) (Cmult n22 c)) (Cplus (Cmult n1 root) (Cmult n22 c)),
     cratio (Cminus (Cmult n1 c) root) (Cplus (Cmult n1 c) root)).

(** structcol/model.py:1147-1211 on an array of angles. *)
Definition fresnel_cplx (casin : C -> C) (n1 n2 : C) (theta : list R) : result (list num * list num) :=
  if existsb (fun t => Rltb (PI / 2) t) theta then Err ValueError
  else let r := map (fresnel_cplx1 casin n1 n2) theta in Ok (map fst r, map snd r).

(** structcol/model.py:1214-1231 [fresnel_transmission]: one minus the reflectances. *)
Definition fresnel_trans_cplx (casin : C -> C) (n1 n2 : C) (theta : list R) : result (list num * list num) :=
  bind (fresnel_cplx casin n1 n2 theta) (fun r =>
  Ok (map (nmap (fun x => 1 - x)) (fst r), map (nmap (fun x => 1 - x)) (snd r))).

(** structcol/model.py:271-328: the arguments of [reflection] for a sample of
    complex index [n].  The detector angles are refracted with |n| (lines
    284-287); the absorption cross section is mu_abs/rho (lines 323-327). *)
Definition absorbing_args (I : refl_in) (n : C) : refl_args :=
  let r2 := match i_radius2 I with Some r => r | None => i_radius I end in
  let rho := reflection_rho (i_vf I) (i_radius I) r2 (i_conc I) in
  let mu_abs := 4 * PI * snd n / i_wavelen I in
  mk_rargs (i_nmedium I) (Cmod n) (i_wavelen I) rho (mu_abs / rho) (i_thickness I) (i_tmin I) (i_tmax I)
    (i_pmin I) (i_pmax I) (i_inc I) (i_num I) (i_small I).

(** structcol/model.py:338-345 with 370-375: the surfaces over which cross
    sections are integrated, as (weight, distance) pairs: two for a binary
    polydisperse sample, weighted by the concentrations; else the largest
    radius alone. *)
Definition surfaces (I : refl_in) : list (R * R) :=
  let r2 := match i_radius2 I with Some r => r | None => i_radius I end in
  let ds := map (fun r => 2 * r) (i_radius I ++ r2) in
  match i_form I, i_conc I with
  | Some ft, Some (c0, c1) =>
      if String.eqb ft "polydisperse" then [(c0, nth 0 ds 0 / 2); (c1, nth 1 ds 0 / 2)]
      else [(1, Rmax_list ds / 2)]
  | _, _ => [(1, Rmax_list ds / 2)] end.

(** pymie's [integrate_intensity_complex_medium] (not modelled): from two
    arrays of intensities, a distance, the angles and an azimuth range to the
    unpolarised, parallel and perpendicular cross sections. *)
Definition integrator := list R -> list R -> R -> list R -> R -> R -> R * R * R.

(** structcol/model.py:376-455: concentration-weighted sums over the surfaces. *)
Definition sum_unpol (integ : integrator) (parts : list (R * R)) par perp angles lo hi : R :=
  fold_right (fun p s => fst (fst (integ par perp (snd p) angles lo hi)) * fst p + s) 0 parts.
Definition sum_par (integ : integrator) (parts : list (R * R)) par perp angles lo hi : R :=
  fold_right (fun p s => snd (fst (integ par perp (snd p) angles lo hi)) * fst p + s) 0 parts.
Definition sum_perp (integ : integrator) (parts : list (R * R)) par perp angles lo hi : R :=
  fold_right (fun p s => snd (integ par perp (snd p) angles lo hi) * fst p + s) 0 parts.

(** structcol/model.py:369-468 and 514-544 for an absorbing sample; names as in
    [reflection_core]. *)
Definition absorbing_core (integ : integrator) (parts : list (R * R)) (A : refl_args)
  (t0 r0 : R * R) (tpar tperp dpar dperp spar sperp : list R) : refl_out :=
  let angles := detected_angles A in
  let angles_tot := total_angles A in
  let dp := map2 Rmult dpar tpar in
  let ds := map2 Rmult dperp tperp in
  let cscat_detected_par := sum_par integ parts dp ds angles (a_pmin A) (a_pmax A) in
  let cscat_detected_perp := sum_perp integ parts dp ds angles (a_pmin A) (a_pmax A) in
  let cscat_total := sum_unpol integ parts spar sperp angles_tot 0 (2 * PI) in
  let cosines := map cos angles_tot in
  let asymmetry := ndiv (sum_unpol integ parts (map2 Rmult spar cosines) (map2 Rmult sperp cosines)
                           angles_tot 0 (2 * PI)) cscat_total in
  let lstar := nbind asymmetry (fun g =>
               nbind (ndiv 1 (1 - g)) (fun a =>
               nbind (ndiv a (a_rho A)) (fun b => ndiv b cscat_total))) in
  let cext := cscat_total + a_cabs A in
  let factor := match a_thickness A with
                | None => Some 1
                | Some L => ndiv ((1 - exp (- a_rho A * cext * L)) * cscat_total) cext end in
  let reflected t r d :=
    nbind factor (fun f => nbind (ndiv (t * d) cext) (fun a => Some (a * f + r))) in
  let par := reflected (fst t0) (fst r0) cscat_detected_par in
  let perp := reflected (snd t0) (snd r0) cscat_detected_perp in
  mk_rout (nmap2 (fun a b => (a + b) / 2) par perp) par perp asymmetry lstar.

(** structcol/model.py:271-544 for a sample of complex index [n]; [dcs] is the
    differential cross section (Mie theory in an absorbing medium, not
    modelled).  A NaN in any array makes every result NaN. *)
Definition reflection_absorbing (casin : C -> C) (integ : integrator) (n : C) (parts : list (R * R))
  (A : refl_args) (dcs : R -> result (num * num)) : result refl_out :=
  let nm := RtoC (a_nmedium A) in
  bind (fresnel_trans_cplx casin nm n [a_inc A]) (fun t0 =>
  bind (fresnel_cplx casin nm n [a_inc A]) (fun r0 =>
  bind (fresnel_trans_cplx casin n nm (map (fun t => PI - t) (detected_angles A))) (fun tr =>
  bind (all_angles dcs (detected_angles A)) (fun d =>
  bind (all_angles dcs (total_angles A)) (fun s =>
  match get_all (fst t0), get_all (snd t0), get_all (fst r0), get_all (snd r0), get_all (fst tr), get_all (snd tr) with
  | Some t1, Some t2, Some r1, Some r2, Some tp, Some ts =>
    match get_all (map fst d), get_all (map snd d), get_all (map fst s), get_all (map snd s) with
    | Some dpar, Some dperp, Some spar, Some sperp =>
        Ok (absorbing_core integ parts A (nth 0 t1 0, nth 0 t2 0) (nth 0 r1 0, nth 0 r2 0) tp ts dpar dperp spar sperp)
    | _, _, _, _ => Ok nan_out end
  | _, _, _, _, _, _ => Ok nan_out
  end))))).

(** [reflection] with its absorbing branch. *)
Definition reflection_any (fsolve : (C -> C) -> C) (factorial : R -> R) (casin : C -> C)
  (mie_ang : list C -> list R -> R -> R * R) (mie_cabs : list C -> list R -> R)
  (integ : C -> integrator) (dcs_abs : C -> R -> result (num * num)) (I : refl_in) : result refl_out :=
  reflection fsolve factorial mie_ang mie_cabs
    (fun n => reflection_absorbing casin (integ n) n (surfaces I) (absorbing_args I n) (dcs_abs n)) I.
